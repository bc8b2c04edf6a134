(** Removal and restoration of single-pin and identical nets (n-level).

    /repo/mt-kahypar/datastructures/dynamic_hypergraph.cpp:227-352 and
    /repo/mt-kahypar/datastructures/partitioned_hypergraph.h:492-545.
    Hyperedges are numbers; [pins] are the valid pins, [hash] the footprints. *)
From Coq Require Import List Arith ZArith Lia Bool Permutation Sorted.
From Verif Require Import Base DynGain.
Import ListNotations.
Local Open Scope nat_scope.

Section Round.
Variables (pins : nat -> list nat) (hash : nat -> Z).

(** dynamic_hypergraph.cpp:258-276 check_if_hyperedges_are_parallel (the pins
    of both are sorted): equal size, then position by position *)
Fixpoint same_upto (l1 l2 : list nat) : bool :=
  match l1, l2 with x :: l1', y :: l2' => (x =? y) && same_upto l1' l2' | _, _ => true end.
Definition parallel_nets (l r : nat) : bool :=
  (length (pins l) =? length (pins r)) && same_upto (pins l) (pins r).

(** dynamic_hypergraph.cpp:297-315: the loop over j for a fixed valid i; the
    boolean of an entry is its field [valid].  Result: lhs_weight, the
    remaining entries, the removed hyperedges. *)
Fixpoint inner (W : nat -> Z) (lhs : nat) (acc : Z) (l : list (nat * bool)) : Z * list (nat * bool) * list nat :=
  match l with
  | [] => (acc, [], [])
  | (r, val) :: l' =>
      if val && (hash lhs =? hash r)%Z && parallel_nets lhs r then
        let '(a, l2, rm) := inner W lhs (acc + W r)%Z l' in (a, (r, false) :: l2, r :: rm)
      else if negb (hash lhs =? hash r)%Z then (acc, l, [])
      else let '(a, l2, rm) := inner W lhs acc l' in (a, (r, val) :: l2, rm)
  end.
(** dynamic_hypergraph.cpp:293-318: the loop over i ([n] is the length).  The
    weight of the representative is written after the inner loop. *)
Fixpoint outer (n : nat) (W : nat -> Z) (l : list (nat * bool)) : (nat -> Z) * list (nat * nat) :=
  match n, l with
  | S n', (h, true) :: l' =>
      let '(a, l2, rm) := inner W h (W h) l' in
      let '(W', rms) := outer n' (upd W h a) l2 in
      (W', map (fun r => (r, h)) rm ++ rms)
  | S n', (_, false) :: l' => outer n' W l'
  | _, _ => (W, [])
  end.
Definition bucket_run (W : nat -> Z) (B : list nat) := outer (length B) W (map (fun h => (h, true)) B).

(** dynamic_hypergraph.cpp:286-291: the comparator of the bucket *)
Definition before (l r : nat) : Prop :=
  (hash l < hash r)%Z \/ (hash l = hash r /\ length (pins l) < length (pins r)) \/
  (hash l = hash r /\ length (pins l) = length (pins r) /\ l < r).

(** all buckets, one after the other in some order: the bucket of a hyperedge
    is a function of its hash, so two buckets share no hyperedge and a bucket
    reads and writes only weights of its own hyperedges *)
Fixpoint buckets_run (W : nat -> Z) (Bs : list (list nat)) : (nat -> Z) * list (nat * nat) :=
  match Bs with
  | [] => (W, [])
  | B :: Bs' => let '(W1, r1) := bucket_run W B in let '(W2, r2) := buckets_run W1 Bs' in (W2, r1 ++ r2)
  end.

(** dynamic_hypergraph.cpp:231-332 removeSinglePinAndParallelHyperedges on the
    enabled hyperedges [en]: the new enabled ones, weights, and the removed
    ones with their representatives (in the order in which the threads stream
    them).  [bucket] is key & mod_mask. *)
Inductive remove_nets (bucket : Z -> nat) (nb : nat) (en : list nat) (W : nat -> Z) :
    list nat -> (nat -> Z) -> list (nat * option nat) -> Prop :=
| rn_all order Bs W' rms L en' :
    Permutation order (seq 0 nb) ->
    length Bs = nb ->
    (forall i B, nth_error Bs i = Some B ->
       Permutation B (filter (fun h => (1 <? length (pins h)) && (bucket (hash h) =? nth i order 0)) en) /\
       StronglySorted before B) ->
    buckets_run W Bs = (W', rms) ->
    Permutation L (map (fun h => (h, None)) (filter (fun h => negb (1 <? length (pins h))) en)
                   ++ map (fun rh => (fst rh, Some (snd rh))) rms) ->
    en' = filter (fun h => negb (existsb (fun x => fst x =? h) L)) en ->
    remove_nets bucket nb en W en' W' L.
End Round.

(** dynamic_hypergraph.cpp:336-352: restoring one hyperedge (weights; under the
    lock of the representative) *)
Definition restore_weight (W : nat -> Z) (x : nat * option nat) : nat -> Z :=
  match snd x with Some rep => upd W rep (W rep - W (fst x))%Z | None => W end.
(** the hyperedges are restored by threads in any order *)
Inductive restore_nets (en : list nat) (W : nat -> Z) (L : list (nat * option nat)) : list nat -> (nat -> Z) -> Prop :=
| rs_all L' : Permutation L' L -> restore_nets en W L (en ++ map fst L') (fold_left restore_weight L' W).

(** partitioned_hypergraph.h:505-530: pin counts of a restored hyperedge (they
    are 0 before): single pin, or copied for the connectivity set of the
    representative *)
Definition restored_pc (k : nat) (part : nat -> nat) (pins : nat -> list nat) (pc : nat -> nat -> nat) (x : nat * option nat) : nat -> nat :=
  if length (pins (fst x)) =? 1 then
    match pins (fst x) with p :: _ => upd (fun _ => 0) (part p) 1 | [] => fun _ => 0 end
  else match snd x with
       | Some rep => fold_left (fun f b => upd f b (pc rep b)) (cset k (pc rep)) (fun _ => 0)
       | None => fun _ => 0
       end.
(** partitioned_hypergraph.h:516-518, 526: additions to the gain cache *)
Definition restored_adds (single : (nat -> nat) -> Z -> nat -> list add) (part : nat -> nat) (W : nat -> Z)
    (pins : nat -> list nat) (x : nat * option nat) : list add :=
  if length (pins (fst x)) =? 1 then flat_map (single part (W (fst x))) (pins (fst x)) else [].
