(** The pins of one hyperedge of the dynamic hypergraph under contraction and
    batch uncontraction (n-level), with the pin counts of the partition.

    /repo/mt-kahypar/datastructures/dynamic_hypergraph.{h,cpp} and
    /repo/mt-kahypar/datastructures/partitioned_hypergraph.h.  Every operation
    on a hyperedge is done under the lock of that hyperedge, so one hyperedge
    is a sequence of atomic operations. *)
From Coq Require Import List Arith Lia Bool Permutation Sorted.
From Verif Require Import Base INA.
Import ListNotations.
Local Open Scope nat_scope.

(** the slots firstEntry(e) .. firstEntry(e+1)-1 of the incidence array, and
    the number of valid ones (firstInvalidEntry) *)
Record edge := mkEdge { e_arr : list nat; e_size : nat }.
Definition valid (e : edge) : list nat := firstn (e_size e) (e_arr e).
Definition invalid (e : edge) : list nat := skipn (e_size e) (e_arr e).

Definition swap_at (l : list nat) (i j : nat) : list nat :=
  set_nth (set_nth l i (nth j l 0)) j (nth i l 0).

(** dynamic_hypergraph.cpp:631-638: the loop over the pins; [--idx; ++idx]
    visits the slot again *)
Fixpoint scan (fuel u v idx last slot : nat) (arr : list nat) : list nat * nat :=
  match fuel with
  | 0 => (arr, slot)
  | S f =>
      if idx =? last then (arr, slot)
      else let pin := nth idx arr 0 in
           if pin =? v then scan f u v idx last slot (swap_at arr idx last)
           else if pin =? u then scan f u v (S idx) last idx arr
           else scan f u v (S idx) last slot arr
  end.

(** dynamic_hypergraph.cpp:621-660 contractHyperedge; the boolean is the flag
    set in shared_incident_nets_u_and_v *)
Definition contractHyperedge (e : edge) (u v : nat) : edge * bool :=
  let last := e_size e - 1 in
  let '(arr, slot) := scan (2 * e_size e) u v 0 last last (e_arr e) in
  if negb (slot =? last) then (mkEdge arr (e_size e - 1), true)
  else (mkEdge (set_nth arr last u) (e_size e), false).

(** what a callback into the partition and the gain cache sees: the case, u, v,
    and the pins and pin counts of the hyperedge at that time *)
Record ev := mkEv { ev_sh : bool; ev_u : nat; ev_v : nat; ev_pins : list nat; ev_pc : nat -> nat }.
(** partition state of the hyperedge: slots, pin counts, callbacks so far *)
Record pst := mkPst { p_edge : edge; p_pc : nat -> nat; p_log : list ev }.

(** dynamic_hypergraph.cpp:686-701 findPositionOfPinInIncidenceArray *)
Fixpoint findpos (n u : nat) (arr : list nat) : option nat :=
  match n with
  | 0 => None
  | S n' => if nth n' arr 0 =? u then Some n' else findpos n' u arr
  end.

(** one contraction that took place inside this hyperedge: u, v, shared flag *)
Record eop := mkOp { o_u : nat; o_v : nat; o_sh : bool }.

(** dynamic_hypergraph.cpp:675-681 and partitioned_hypergraph.h:427-433: one
    iteration of restoreHyperedgeSizeForBatch (under the lock of the hyperedge) *)
Definition restore_one (par part : nat -> nat) (s : pst) (pin : nat) : pst :=
  let e' := mkEdge (e_arr (p_edge s)) (S (e_size (p_edge s))) in
  let blk := part (par pin) in
  let pc' := upd (p_pc s) blk (S (p_pc s blk)) in
  mkPst e' pc' (p_log s ++ [mkEv true (par pin) pin (valid e') pc']).
(** dynamic_hypergraph.cpp:132-140 and partitioned_hypergraph.h:434-436: u is
    replaced by v.  The position is searched before the lock is taken; no other
    step moves u (slots of other nodes may change), so both are one step here.
    (Not found: the slot behind the valid pins, as in the code.) *)
Definition replace_one (s : pst) (o : eop) : pst :=
  let e := p_edge s in
  let slot := match findpos (e_size e) (o_u o) (e_arr e) with Some i => i | None => e_size e end in
  let e' := mkEdge (set_nth (e_arr e) slot (o_v o)) (e_size e) in
  mkPst e' (p_pc s) (p_log s ++ [mkEv false (o_u o) (o_v o) (valid e') (p_pc s)]).

(** One batch, dynamic_hypergraph.cpp:117-158, as far as it concerns this
    hyperedge: the tasks not yet done, and whether the restoring of the pins is
    not begun / running in one thread / finished (_hes_to_resize_flag_array is
    set from the first shared task on).  The steps of the threads interleave
    arbitrarily.  [rank] is the position of the batch of a node in the
    uncontraction order, i.e. a smaller rank means a larger batchIndex (the
    batches are processed from the last one). *)
Inductive rst := RIdle | RRun | RDone.
Inductive bstep (rank : nat -> nat) (b : nat) (par part : nat -> nat) :
    pst * list eop * rst -> pst * list eop * rst -> Prop :=
| bs_first s l1 o l2 : o_sh o = true ->
    bstep rank b par part (s, l1 ++ o :: l2, RIdle) (s, l1 ++ l2, RRun)
| bs_later s l1 o l2 r : o_sh o = true -> r <> RIdle ->
    bstep rank b par part (s, l1 ++ o :: l2, r) (s, l1 ++ l2, r)
| bs_restore s os pin : nth_error (e_arr (p_edge s)) (e_size (p_edge s)) = Some pin -> rank pin = b ->
    bstep rank b par part (s, os, RRun) (restore_one par part s pin, os, RRun)
| bs_stop s os : (forall pin, nth_error (e_arr (p_edge s)) (e_size (p_edge s)) = Some pin -> rank pin <> b) ->
    bstep rank b par part (s, os, RRun) (s, os, RDone)
| bs_replace s l1 o l2 r : o_sh o = false ->
    bstep rank b par part (s, l1 ++ o :: l2, r) (replace_one s o, l1 ++ l2, r).
Inductive bsteps (rank : nat -> nat) (b : nat) (par part : nat -> nat) :
    pst * list eop * rst -> pst * list eop * rst -> Prop :=
| bss_refl x : bsteps rank b par part x x
| bss_step x y z : bsteps rank b par part x y -> bstep rank b par part y z -> bsteps rank b par part x z.
(** a complete batch *)
Definition batch_run (rank : nat -> nat) (b : nat) (par part : nat -> nat) (s : pst) (os : list eop) (s' : pst) : Prop :=
  exists r, bsteps rank b par part (s, os, RIdle) (s', [], r) /\ r <> RRun.

(** dynamic_hypergraph.cpp:648, 656-657: the footprint of the hyperedge (a sum
    modulo 2^64; taken over Z here) that removeSinglePinAndParallelHyperedges
    compares (dynamic_hypergraph.cpp:243-301).  Initially the sum over the pins
    (dynamic_hypergraph_factory.cpp:111-122). *)
Definition hash_step (h : nat -> Z) (x : Z) (o : eop) : Z :=
  if o_sh o then (x - h (o_v o))%Z else (x - h (o_v o) + h (o_u o))%Z.
Definition hash_sum (h : nat -> Z) (pins : list nat) : Z := fold_right (fun p a => (h p + a)%Z) 0%Z pins.
