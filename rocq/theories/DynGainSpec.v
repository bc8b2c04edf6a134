(** Specification for the gain cache during uncontraction (C82): the
    contribution of one hyperedge to the entries of a node, with the same
    multipliers as in C07-C09 (km1_pt, ... in GainCacheProofs.v). *)
From Coq Require Import List Arith ZArith Lia Bool.
From Verif Require Import Base GainCache GainCacheProofs DynEdge DynEdgeSpec DynGain.
Import ListNotations.

Definition memb (x : nat) (l : list nat) : bool := existsb (Nat.eqb x) l.
(** [pt size c]: multiplier of the penalty when the own block has [c] pins;
    [bt size c]: multiplier of the benefit of a block with [c] pins *)
Definition cpen (pt : Z -> Z -> Z) (part : nat -> nat) (w : Z) (pins : list nat) (x : nat) : Z :=
  if memb x pins then w * pt (Z.of_nat (length pins)) (Z.of_nat (counts part pins (part x))) else 0.
Definition cben (bt : Z -> Z -> Z) (part : nat -> nat) (w : Z) (pins : list nat) (x b : nat) : Z :=
  if memb x pins then w * bt (Z.of_nat (length pins)) (Z.of_nat (counts part pins b)) else 0.

(** the cache is exact for hyperedges with the given weights and pins *)
Definition cache_exact (pt bt : Z -> Z -> Z) (k : nat) (part : nat -> nat) (H : list (Z * list nat)) (c : cache) : Prop :=
  (forall x, pen c x = sumZ (fun e => cpen pt part (fst e) (snd e) x) H) /\
  (forall x b, (b < k)%nat -> ben c x b = sumZ (fun e => cben bt part (fst e) (snd e) x b) H).
