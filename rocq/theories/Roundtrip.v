(** Model of one hyperedge during a whole n-level coarsening and uncoarsening:
    the concurrent contraction protocol ([RegTree], C84), the batch hierarchy
    built from the resulting contraction tree ([Batch], C80) and the pins of
    the hyperedge ([DynEdge], C81) put together.

    /repo/mt-kahypar/datastructures/dynamic_hypergraph.cpp:534-617 (contract),
    184-230 (createBatchUncontractionHierarchy), 238-331
    (removeSinglePinAndParallelHyperedges), contraction_tree.cpp:474-508 and
    partition/coarsening/nlevel_uncoarsener.cpp:133-225 (the order in which the
    batches are processed). *)
From Coq Require Import List Arith Lia Bool Permutation Sorted.
From Verif Require Import Base Batch RegTree RegTreeSpec RegTreeForest DynEdge DynEdgeSpec.
Import ListNotations.
Local Open Scope nat_scope.

(** State of the contraction protocol, the slots of one hyperedge, the
    contractions that took place in it so far (ghost) and, if the hyperedge was
    removed (it became a single-pin or parallel net), the version in which. *)
Record hst := mkH { h_s : St; h_e : edge; h_ops : list eop; h_rm : option nat }.

Inductive hstep (n mx : nat) : hst -> hst -> Prop :=
(** Any step of the contraction protocol.  A thread leaves [CEnd] when it is
    through with the loop over the incident nets of y
    (dynamic_hypergraph.cpp:567-585), so it has contracted y in every hyperedge
    (not removed) that contains y.  Simplified: the incident nets of y are the
    hyperedges that contain y (their lists are the subject of C79). *)
| hs_thread s s' e ops r : step n mx s s' -> cv (fst s') = cv (fst s) ->
    (r = None -> forall t x y a, snd s t = CEnd x y a -> snd s' t <> CEnd x y a -> ~ In y (valid e)) ->
    hstep n mx (mkH s e ops r) (mkH s' e ops r)
(** dynamic_hypergraph.cpp:570-572 and 581-583: under the lock of the hyperedge *)
| hs_work g pcs e ops t x y a : pcs t = CEnd x y a -> In y (valid e) ->
    hstep n mx (mkH (g, pcs) e ops None)
      (mkH (g, pcs) (fst (contractHyperedge e x y)) (ops ++ [mkOp x y (snd (contractHyperedge e x y))]) None)
(** dynamic_hypergraph.cpp:238-331 between two passes: the pins are sorted (246)
    and the hyperedge stays ... *)
| hs_keep g pcs e l ops r : (forall t, pcs t = Idle) -> Permutation l (valid e) ->
    hstep n mx (mkH (g, pcs) e ops r) (mkH (set_cv g (S (cv g)), pcs) (mkEdge (l ++ invalid e) (e_size e)) ops r)
(** ... or is removed (252 or 299) *)
| hs_remove g pcs e l ops : (forall t, pcs t = Idle) -> Permutation l (valid e) ->
    hstep n mx (mkH (g, pcs) e ops None)
      (mkH (set_cv g (S (cv g)), pcs) (mkEdge (l ++ invalid e) (e_size e)) ops (Some (cv g))).

(** Runs in which the final cycle checks do not overlap (see C84). *)
Inductive hrun (n mx : nat) (w0 : nat -> nat) (P0 : list nat) : hst -> Prop :=
| hrun_0 : hrun n mx w0 P0 (mkH (g0 w0, fun _ => Idle) (mkEdge P0 (length P0)) [] None)
| hrun_S h h' : hrun n mx w0 P0 h -> hstep n mx h h' -> one_committing (h_s h') -> hrun n mx w0 P0 h'.

(** The batches of the versions 0..V (dynamic_hypergraph.cpp:186-203): for every
    version a finished run of the batch construction, and the number of batches. *)
Definition hierarchy (t : ctree) (bs V : nat) (asg : nat -> list asn) (B : nat -> nat) : Prop :=
  forall k, k <= V -> exists dist s ts, brun t k bs dist s ts /\ finished ts /\
    asg k = assignments ts /\ B k = numberOfNonEmptyBatches (ct_n t) s.

(** sums of batch sizes of the versions below [k] / from [k] up to [V] *)
Fixpoint below (B : nat -> nat) (k : nat) : nat := match k with O => 0 | S j => below B j + B j end.
Definition from (B : nat -> nat) (V k : nat) : nat := below B (S V) - below B k.

(** dynamic_hypergraph.cpp:205-213 and contraction_tree.cpp:505: the batches of
    a version are stored in reverse order; the batch index of a node is its
    position in the concatenation of all batches. *)
Definition batch_indices (V : nat) (asg : nat -> list asn) (B : nat -> nat) (bidx : nat -> nat) : Prop :=
  forall k a, k <= V -> In a (asg k) -> bidx (a_v a) = below B k + (B k - 1 - a_b a).

(** nlevel_uncoarsener.cpp:141-225: the batches are processed from the last one
    to the first; [rank] is the number of batches processed before the one of
    the node. *)
Definition rank_of (V : nat) (B bidx : nat -> nat) (v : nat) : nat := below B (S V) - 1 - bidx v.

(** The hyperedge is present from this batch on: it is restored when all
    batches of later versions are processed (nlevel_uncoarsener.cpp:200-205). *)
Definition first_batch (V : nat) (B : nat -> nat) (rm : option nat) : nat :=
  match rm with None => 0 | Some k => from B V (S k) end.

(** The node that represents [x] before batch [b]: the first node on the path
    to the root that is present, i.e. a root or uncontracted in an earlier
    batch. *)
Fixpoint rep_of (par rank : nat -> nat) (b f x : nat) : nat :=
  match f with
  | O => x
  | S f' => if (par x =? x) || (rank x <? b) then x else rep_of par rank b f' (par x)
  end.

(** Node weights during uncontraction (dynamic_hypergraph.cpp:148-152): the
    uncontractions of one batch in any order. *)
Definition unweigh (w : nat -> nat) (a : asn) : nat -> nat := setf w (a_u a) (w (a_u a) - w (a_v a)).
Inductive wrun (rank : nat -> nat) (all : list asn) (w1 : nat -> nat) : nat -> (nat -> nat) -> Prop :=
| wr_0 : wrun rank all w1 0 w1
| wr_S b w os : wrun rank all w1 b w -> Permutation os (filter (fun a => rank (a_v a) =? b) all) ->
    wrun rank all w1 (S b) (fold_left unweigh os w).
