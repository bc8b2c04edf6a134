(** Spec.v - the specification side: what a hypergraph, a partition and the reported quantities mean.
    Nothing in this file depends on how the code computes them.  Documentation sources:
    include/mtkahypar.h (doc comments of mt_kahypar_block_weight, _connectivity, _num_pins_in_block, _cut,
    _km1, _soed) and README. *)
From Verif Require Import Base.

(** A hypergraph: active nodes, active hyperedges, the pins of each hyperedge, the incident hyperedges of
    each node, node weights, hyperedge weights. *)
Record hypergraph := mkHG {
  nodes : list nat;
  edges : list nat;
  pins  : nat -> list nat;
  inc   : nat -> list nat;
  nw    : nat -> Z;
  ew    : nat -> Z
}.

(** Well-formedness: ids unique, pins duplicate free and active, incidence lists inverse to pin lists. *)
Record wf_hg (H : hypergraph) : Prop := {
  wf_nodes : NoDup (nodes H);
  wf_edges : NoDup (edges H);
  wf_pins_nodup : forall e, In e (edges H) -> NoDup (pins H e);
  wf_pins_nodes : forall e v, In e (edges H) -> In v (pins H e) -> In v (nodes H);
  wf_inc_nodup : forall v, In v (nodes H) -> NoDup (inc H v);
  wf_inc : forall v e, In v (nodes H) -> (In e (inc H v) <-> In e (edges H) /\ In v (pins H e))
}.

(** A (possibly partial) assignment of nodes to blocks; [None] is kInvalidPartition. *)
Definition partition := nat -> option nat.

Definition in_block (P : partition) (b : nat) (v : nat) : bool :=
  match P v with Some c => Nat.eqb c b | None => false end.

(** Total weight of the nodes assigned to block [b]. *)
Definition block_weight (H : hypergraph) (P : partition) (b : nat) : Z :=
  sumZ (nw H) (filter (in_block P b) (nodes H)).

(** Number of pins of [e] assigned to block [b]. *)
Definition pin_count (H : hypergraph) (P : partition) (e b : nat) : Z :=
  Z.of_nat (length (filter (in_block P b) (pins H e))).

(** The distinct blocks touched by [e], and their number. *)
Definition blocks_of (H : hypergraph) (P : partition) (e : nat) : list nat :=
  nodup Nat.eq_dec (flat_map (fun v => match P v with Some b => [b] | None => [] end) (pins H e)).
Definition connectivity (H : hypergraph) (P : partition) (e : nat) : Z :=
  Z.of_nat (length (blocks_of H P e)).

(** Objective functions (README / mtkahypar.h). *)
Definition cut_edge (H : hypergraph) (P : partition) (e : nat) : Z :=
  if 1 <? connectivity H P e then ew H e else 0.
Definition km1_edge (H : hypergraph) (P : partition) (e : nat) : Z :=
  ew H e * (connectivity H P e - 1).
Definition soed_edge (H : hypergraph) (P : partition) (e : nat) : Z :=
  if 1 <? connectivity H P e then ew H e * connectivity H P e else 0.

Definition cut  (H : hypergraph) (P : partition) : Z := sumZ (cut_edge H P) (edges H).
Definition km1  (H : hypergraph) (P : partition) : Z := sumZ (km1_edge H P) (edges H).
Definition soed (H : hypergraph) (P : partition) : Z := sumZ (soed_edge H P) (edges H).

(** Complete assignment into blocks [0..k-1]. *)
Definition complete (H : hypergraph) (P : partition) (k : nat) : Prop :=
  forall v, In v (nodes H) -> exists b, P v = Some b /\ (b < k)%nat.

(** No block exceeds its limit. *)
Definition balanced (H : hypergraph) (P : partition) (k : nat) (L : nat -> Z) : Prop :=
  forall b, (b < k)%nat -> block_weight H P b <= L b.

Definition total_weight (H : hypergraph) : Z := sumZ (nw H) (nodes H).

(** The partition after moving [u] to [t]. *)
Definition move (P : partition) (u t : nat) : partition := upd P u (Some t).

(** The partition after a list of moves (node, target), first move first. *)
Definition moves (P : partition) (ms : list (nat * nat)) : partition :=
  fold_left (fun Q m => move Q (fst m) (snd m)) ms P.
