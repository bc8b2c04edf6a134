(** Specification for the removal and restoration of nets (C83). *)
From Coq Require Import List Arith ZArith Lia Bool Permutation.
From Verif Require Import Base NetRemoval.
Import ListNotations.
Local Open Scope nat_scope.

(** number of blocks of a hyperedge, and the three objective functions as a
    function of it *)
Definition lambda (part : nat -> nat) (ps : list nat) : nat := length (nodup Nat.eq_dec (map part ps)).
Definition f_km1 (l : nat) : Z := (Z.of_nat l - 1)%Z.
Definition f_cut (l : nat) : Z := if 1 <? l then 1%Z else 0%Z.
Definition f_soed (l : nat) : Z := if 1 <? l then Z.of_nat l else 0%Z.
Definition objective (f : nat -> Z) (pins : nat -> list nat) (part : nat -> nat) (en : list nat) (W : nat -> Z) : Z :=
  sumZ (fun e => Z.mul (W e) (f (lambda part (pins e)))) en.

(** hyperedges [L] that can be restored to the enabled ones [en] *)
Record restorable (pins : nat -> list nat) (en : list nat) (L : list (nat * option nat)) : Prop := {
  rt_nd : NoDup (en ++ map fst L);
  rt_single : forall h, In (h, None) L -> length (pins h) = 1;
  rt_par : forall h rep, In (h, Some rep) L -> In rep en /\ Permutation (pins h) (pins rep) /\ 1 < length (pins h) }.

(** histories: every removal is later undone by the restore of exactly its
    hyperedges (in any order inside), last removal first; pins and footprints
    are different in every round (contractions in between) *)
Inductive nested (bucket : Z -> nat) (nb : nat) : list nat -> (nat -> Z) -> list nat -> (nat -> Z) -> Prop :=
| ns_nil en W : nested bucket nb en W en W
| ns_round pins hash en W en1 W1 L en2 W2 en3 W3 :
    remove_nets pins hash bucket nb en W en1 W1 L -> nested bucket nb en1 W1 en2 W2 ->
    restore_nets en2 W2 L en3 W3 -> nested bucket nb en W en3 W3
| ns_seq en1 W1 en2 W2 en3 W3 : nested bucket nb en1 W1 en2 W2 -> nested bucket nb en2 W2 en3 W3 -> nested bucket nb en1 W1 en3 W3.
