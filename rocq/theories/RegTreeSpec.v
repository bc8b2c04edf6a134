(** Specification vocabulary for the contraction protocol (C84). *)
From Coq Require Import List Arith Lia Bool.
From Verif Require Import Base.
Import ListNotations.
Local Open Scope nat_scope.

Definition setf {A} (f : nat -> A) (a : nat) (x : A) : nat -> A := fun b => if b =? a then x else f b.

(** A sequence of contractions (representative, contracted node), executed one
    after the other on [n] nodes with weights [w0]: both nodes are present at
    that moment, and the weight limit is respected.  The last two arguments are
    the remaining nodes and the weights afterwards. *)
Inductive contr (n mx : nat) (w0 : nat -> nat) : list (nat * nat) -> (nat -> bool) -> (nat -> nat) -> Prop :=
| contr_nil : contr n mx w0 [] (fun _ => true) w0
| contr_snoc l e w x y : contr n mx w0 l e w ->
    x < n -> y < n -> x <> y -> e x = true -> e y = true -> w x + w y <= mx ->
    contr n mx w0 (l ++ [(x, y)]) (setf e y false) (setf w x (w x + w y)).

(** [k]-fold application *)
Fixpoint up (par : nat -> nat) (k : nat) (v : nat) : nat :=
  match k with O => v | S j => up par j (par v) end.

(** A parent function is a forest: from every node one reaches a root. *)
Definition forest (n : nat) (par : nat -> nat) : Prop :=
  forall v, v < n -> exists k, par (up par k v) = up par k v.

(** A cycle of at least two nodes. *)
Definition on_cycle (par : nat -> nat) (v : nat) : Prop := par v <> v /\ exists k, 0 < k /\ up par k v = v.

(** Sum of the weights of the nodes that are still present. *)
Fixpoint total (n : nat) (e : nat -> bool) (w : nat -> nat) : nat :=
  match n with O => 0 | S m => total m e w + (if e m then w m else 0) end.

(** number of nodes below [n] with a property *)
Definition count (n : nat) (f : nat -> bool) : nat := length (filter f (seq 0 n)).
