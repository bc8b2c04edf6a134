(** Contract.v - StaticHypergraph::contract (mt-kahypar/datastructures/static_hypergraph.cpp:62-505): model.

    Scheduling freedom is kept as explicit input: the order in which parallel loops add node weights, the insertion
    order into the hash buckets, the order in which buckets are processed, the order of the memcpy's of incident nets.
    Simplifications: two buckets touch disjoint hyperedges, therefore a bucket is processed in one step; the
    flat temporary arrays are represented as one list per hyperedge/vertex (layout: Csr.v); ids are unbounded with
    one reserved value [kInv] (kInvalidHypernode) above all ids. *)
From Verif Require Import Base Spec PrefixSum Rank Sorting.

Section Contract.
(** The fine hypergraph, number of (enabled or disabled) hypernodes and hyperedges, the cluster label of each node. *)
Variables (H : hypergraph) (n m kInv : nat) (comm : nat -> nat).

(** *** Stage 1, :94-142 *)
(** mapping[communities[hn]] = 1 for all enabled nodes, :96-101 *)
Definition used (c : nat) : bool := existsb (fun v => Nat.eqb (comm v) c) (nodes H).
(** :103-106 *)
Definition num_coarse : nat := rank used n.
(** :108-114: communities[hn] after remapping. *)
Definition cmap (v : nat) : nat := if mem v (nodes H) then rank used (comm v) else kInv.
(** :132-138: atomic adds, in any order of the nodes. *)
Definition add_weights (order : list nat) : nat -> Z :=
  fold_left (fun w v => upd w (cmap v) (w (cmap v) + nw H v)) order (fun _ => 0).

(** *** Stage 2, :144-299 *)
(** while ( *(last - 1) == kInvalidHypernode ) --last, :174-176 *)
Fixpoint drop_inv (l : list nat) : list nat :=
  match l with [] => [] | x :: r => if Nat.eqb x kInv then drop_inv r else l end.
Definition strip (l : list nat) : list nat := rev (drop_inv (rev l)).
(** pins mapped, sorted, unique, disabled vertices removed, :163-176 *)
Definition cpins (e : nat) : list nat := strip (sort_uniq (map cmap (pins H e))).
(** kEdgeHashSeed + sum of squares; HypernodeID is a 32-bit type (x*x wraps), footprint a 64-bit one, :148, :186-190. *)
Definition footprint (l : list nat) : Z :=
  fold_left (fun s x => (s + (Z.of_nat x * Z.of_nat x) mod 2 ^ 32) mod 2 ^ 64) l 42.
(** edges that are inserted into the map (and have valid_hyperedges = 1), :158, :185-199 *)
Definition valid0 (e : nat) : bool := mem e (edges H) && (1 <? length (cpins e))%nat.
(** ConcurrentBucketMap::insert, concurrent_bucket_map.h:106-112, with 2^t buckets. *)
Definition bucket_of (t : nat) (key : Z) : nat := Z.to_nat (Z.land key (2 ^ Z.of_nat t - 1)).

(** ContractedHyperedgeInformation, :46-51 *)
Record info := mkInfo { i_he : nat; i_hash : Z; i_size : nat; i_valid : bool }.
Definition mk_info (e : nat) : info := mkInfo e (footprint (cpins e)) (length (cpins e)) true.
Definition invalidate (x : info) : info := mkInfo (i_he x) (i_hash x) (i_size x) false.

(** *** Stage 3, :302-365 *)
(** std::tie(hash, size, he) comparison, :333-336 *)
Definition info_leb (x y : info) : bool :=
  (i_hash x <? i_hash y) || ((i_hash x =? i_hash y) &&
    ((i_size x <? i_size y)%nat || ((i_size x =? i_size y)%nat && (i_he x <=? i_he y)%nat))).
(** check_if_hyperedges_are_parallel, :312-330 *)
Fixpoint same_pins (l1 l2 : list nat) : bool :=
  match l1, l2 with
  | [], [] => true
  | x :: r1, y :: r2 => if Nat.eqb x y then same_pins r1 r2 else false
  | _, _ => false
  end.
Definition parallel (e1 e2 : nat) : bool := same_pins (cpins e1) (cpins e2).
(** inner loop over j, :344-359: returns lhs_weight, the bucket entries after i, valid_hyperedges *)
Fixpoint inner (w : nat -> Z) (x : info) (lw : Z) (l : list info) (v : nat -> bool) : Z * list info * (nat -> bool) :=
  match l with
  | [] => (lw, [], v)
  | y :: r =>
    if i_valid y && (i_hash x =? i_hash y) && parallel (i_he x) (i_he y) then
      let '(lw', r', v') := inner w x (lw + w (i_he y)) r (upd v (i_he y) false) in (lw', invalidate y :: r', v')
    else if negb (i_hash x =? i_hash y) then (lw, y :: r, v)
    else let '(lw', r', v') := inner w x lw r v in (lw', y :: r', v')
  end.
(** outer loop over i, :339-362 ([fuel] = number of entries) *)
Fixpoint outer (fuel : nat) (l : list info) (w : nat -> Z) (v : nat -> bool) : (nat -> Z) * (nat -> bool) :=
  match fuel, l with
  | S fuel', x :: r =>
    if i_valid x then
      let '(lw, r', v') := inner w x (w (i_he x)) r v in outer fuel' r' (upd w (i_he x) lw) v'
    else outer fuel' r w v
  | _, _ => (w, v)
  end.
Definition process_bucket (b : list nat) (w : nat -> Z) (v : nat -> bool) : (nat -> Z) * (nat -> bool) :=
  let l := isort info_leb (map mk_info b) in outer (length l) l w v.
Definition stage3 (buckets : list (list nat)) : (nat -> Z) * (nat -> bool) :=
  fold_left (fun st b => process_bucket b (fst st) (snd st)) buckets (ew H, valid0).

(** *** Stage 4, :367-500 *)
(** removal of invalid and renumbering of valid incident nets of one vertex, :441-450; array segment [a],
    [cnt] = incident_nets_end - pos *)
Fixpoint remap (v : nat -> bool) (cnt pos : nat) (a : nat -> nat) : nat * (nat -> nat) :=
  match cnt with
  | O => (pos, a)
  | S c => if v (a pos) then remap v c (S pos) (upd a pos (rank v (a pos)))
           else remap v c pos (upd (upd a pos (a (pos + c)%nat)) (pos + c)%nat (a pos))
  end.
Definition arr (l : list nat) : nat -> nat := fun i => nth i l 0%nat.
Definition remap_list (v : nat -> bool) (l : list nat) : list nat :=
  let '(size, a) := remap v (length l) 0 (arr l) in map a (seq 0 size).

(** Choices of the scheduler. *)
Record csched := mkCS {
  cs_worder : list nat;              (* order of the weight additions *)
  cs_t : nat;                        (* log2 of the number of buckets *)
  cs_border : list nat;              (* order in which buckets are processed *)
  cs_bucket : nat -> list nat;       (* content of each bucket in insertion order *)
  cs_inc : nat -> list nat;          (* de-duplicated incident nets of a coarse vertex *)
  cs_eorder : list nat               (* order in which hyperedges are written *)
}.
(** Incident nets of coarse vertex c: those of its nodes in some order (:215-225), then either sorted and made
    unique (:236-243), or distributed to buckets that are each sorted and made unique and written in some order
    (:252-291), optionally sorted at the end (:286-290). *)
Definition raw_inc (c : nat) : list nat := flat_map (inc H) (filter (fun v => Nat.eqb (cmap v) c) (nodes H)).
Definition inc_ok (c : nat) (l : list nat) : Prop :=
  (exists l0, Permutation l0 (raw_inc c) /\ l = sort_uniq l0) \/
  (exists t border, Permutation border (seq 0 (2 ^ t)) /\
     let high := flat_map (fun b => sort_uniq (filter (fun e => Nat.eqb (bucket_of t (Z.of_nat e)) b) (raw_inc c))) border in
     l = high \/ l = nsort high).
Definition csched_ok (s : csched) : Prop :=
  Permutation (cs_worder s) (nodes H) /\
  Permutation (cs_border s) (seq 0 (2 ^ cs_t s)) /\
  (forall b, Permutation (cs_bucket s b)
     (filter (fun e => valid0 e && Nat.eqb (bucket_of (cs_t s) (footprint (cpins e))) b) (seq 0 m))) /\
  (forall c, (c < num_coarse)%nat -> inc_ok c (cs_inc s c)) /\
  Permutation (cs_eorder s) (seq 0 m).

(** The coarse hypergraph; the second result of contract is [cmap] (the array communities is overwritten). *)
Definition contract (s : csched) : hypergraph :=
  let '(w, v) := stage3 (map (cs_bucket s) (cs_border s)) in
  mkHG (seq 0 num_coarse) (seq 0 (rank v m))
       (scatter v cpins (cs_eorder s) (fun _ => []))
       (fun c => remap_list v (cs_inc s c))
       (add_weights (cs_worder s))
       (scatter v w (cs_eorder s) (fun _ => 0)).
End Contract.
