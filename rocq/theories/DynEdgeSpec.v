(** Specification for the pins of one hyperedge (C81). *)
From Coq Require Import List Arith Lia Bool Permutation Sorted.
From Verif Require Import Base DynEdge.
Import ListNotations.
Local Open Scope nat_scope.

(** the representative of [x] after the given contractions, in order *)
Definition reps (ops : list eop) (x : nat) : nat :=
  fold_left (fun r o => if r =? o_v o then o_u o else r) ops x.

(** contraction phase: the contractions of pins of the hyperedge, one after
    the other (u not yet contracted itself), and the sorting of the valid pins
    in removeSinglePinAndParallelHyperedges (dynamic_hypergraph.cpp:246-247) *)
Inductive erun (P0 : list nat) : list eop -> edge -> Prop :=
| er_init : erun P0 [] (mkEdge P0 (length P0))
| er_contract ops e u v : erun P0 ops e -> In v (valid e) -> u <> v -> ~ In u (map o_v ops) ->
    erun P0 (ops ++ [mkOp u v (snd (contractHyperedge e u v))]) (fst (contractHyperedge e u v))
| er_sort ops e l : erun P0 ops e -> Permutation l (valid e) ->
    erun P0 ops (mkEdge (l ++ invalid e) (e_size e)).

(** An uncontraction order as C80 gives it: [rank] is the batch in which a node
    is uncontracted.  Representatives come strictly first, and of two
    contractions onto the same node the later one is not uncontracted later. *)
Record order_ok (P0 : list nat) (ops : list eop) (rank par : nat -> nat) (b0 : nat) : Prop := {
  o_par : forall o, In o ops -> par (o_v o) = o_u o;
  o_first : forall o, In o ops -> b0 <= rank (o_v o);
  o_parent : forall o1 o2, In o1 ops -> In o2 ops -> o_u o2 = o_v o1 -> rank (o_v o1) < rank (o_v o2);
  o_sibling : forall l1 o1 l2 o2 l3, ops = l1 ++ o1 :: l2 ++ o2 :: l3 -> o_u o1 = o_u o2 ->
      rank (o_v o2) <= rank (o_v o1);
  o_else : forall x, In x P0 \/ In x (map o_u ops) -> ~ In x (map o_v ops) -> par x = x \/ rank x < b0 }.

(** number of pins in a block *)
Definition counts (part : nat -> nat) (pins : list nat) (blk : nat) : nat :=
  length (filter (fun x => part x =? blk) pins).
(** partitioned_hypergraph.h:415-422: uncontracted nodes get the block of their
    representative *)
Definition setparts (rank : nat -> nat) (b : nat) (par part : nat -> nat) (x : nat) : nat :=
  if rank x =? b then part (par x) else part x.

(** uncontraction phase, from batch [b0] on: the invalid pins are sorted by
    batch (dynamic_hypergraph.cpp:211-224); then any refinement (the nodes get
    arbitrary blocks, the pin counts are kept: C01) and the batches in order,
    the steps of the uncontractions of one batch interleaved in any way. *)
Inductive urun (ops : list eop) (e0 : edge) (rank par : nat -> nat) (b0 : nat) :
    nat -> (nat -> nat) -> pst -> Prop :=
| ur_start inv part : Permutation inv (invalid e0) ->
    StronglySorted (fun x y => rank x <= rank y) inv ->
    urun ops e0 rank par b0 b0 part
      (mkPst (mkEdge (valid e0 ++ inv) (e_size e0)) (counts part (valid e0)) [])
| ur_refine b part s part' : urun ops e0 rank par b0 b part s ->
    urun ops e0 rank par b0 b part' (mkPst (p_edge s) (counts part' (valid (p_edge s))) (p_log s))
| ur_batch b part s os s' : urun ops e0 rank par b0 b part s ->
    Permutation os (filter (fun o => rank (o_v o) =? b) ops) ->
    batch_run rank b par (setparts rank b par part) s os s' ->
    urun ops e0 rank par b0 (S b) (setparts rank b par part) s'.
