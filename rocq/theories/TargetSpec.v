(** TargetSpec.v - what distances and Steiner trees of a target graph are, independent of the code.

    A target graph is a list of arcs (source, target, weight); every undirected edge appears in both directions. *)
From Verif Require Import Base.

Definition arc := (nat * nat * Z)%type.
Definition src (a : arc) : nat := fst (fst a).
Definition dst (a : arc) : nat := snd (fst a).
Definition wt (a : arc) : Z := snd a.

(** A walk from [u] to [v] along arcs, with its length. *)
Inductive walk (G : list arc) : nat -> nat -> Z -> Prop :=
| walk_nil u : walk G u u 0
| walk_cons u x v a b : In (u, x, a) G -> walk G x v b -> walk G u v (a + b).

(** [d] is the length of a shortest path from [u] to [v]. *)
Definition is_dist (G : list arc) (u v : nat) (d : Z) : Prop :=
  walk G u v d /\ forall w, walk G u v w -> d <= w.

(** Nodes joined by a set of (undirected) edges. *)
Inductive joined (L : list arc) (u : nat) : nat -> Prop :=
| joined_refl : joined L u u
| joined_step x y a : joined L u x -> In (x, y, a) L \/ In (y, x, a) L -> joined L u y.

Definition connects (L : list arc) (S : nat -> Prop) : Prop :=
  forall x y, S x -> S y -> joined L x y.
Definition weight (L : list arc) : Z := sumZ wt L.

(** [x] is the weight of a minimum Steiner tree of the terminals [S]: the least weight of a set of edges of the graph that connects [S].
    (Edge weights are non-negative, so a cheapest connecting edge set is, up to edges of weight zero, a tree.) *)
Definition is_steiner (G : list arc) (S : nat -> Prop) (x : Z) : Prop :=
  (exists L, incl L G /\ connects L S /\ weight L = x) /\
  (forall L, incl L G -> connects L S -> x <= weight L).

(** The target graphs considered: nodes [0..n-1], symmetric, no self loops, no parallel edges of different weight, non-negative weights. *)
Record target (n : nat) (G : list arc) : Prop := {
  tg_src : forall u v a, In (u, v, a) G -> (u < n)%nat /\ (v < n)%nat;
  tg_sym : forall u v a, In (u, v, a) G -> In (v, u, a) G;
  tg_noloop : forall u v a, In (u, v, a) G -> u <> v;
  tg_simple : forall u v a b, In (u, v, a) G -> In (u, v, b) G -> a = b;
  tg_nonneg : forall u v a, In (u, v, a) G -> 0 <= a
}.

(** A target graph is connected. *)
Definition is_connected (n : nat) (G : list arc) : Prop :=
  forall u v, (u < n)%nat -> (v < n)%nat -> exists w, walk G u v w.

(** Block sets. *)
Definition bset := nat -> bool.
Definition within (n : nat) (S : bset) : Prop := forall x, S x = true -> (x < n)%nat.
Definition members (S : bset) : nat -> Prop := fun x => S x = true.
