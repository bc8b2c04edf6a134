(** Model of the concurrent contraction protocol of the n-level coarsener:
    registering contractions in the contraction tree and executing them.
    /repo/mt-kahypar/datastructures/contraction_tree.h:370-482 (registerContraction,
    unregisterContraction), dynamic_hypergraph.cpp:52-86 and 534-617
    (registerContraction, contract(v), contract(u,v)), the identical code in
    dynamic_graph.cpp:53-160, and the caller nlevel_coarsener.h:250-273.

    Granularity: every acquisition and release of a node lock, every read of a
    word that the thread has not locked, and every write to the tree is one
    atomic step; reads of words of a node whose lock is held are merged with the
    next step (only the lock holder writes them).  Memory is sequentially
    consistent.  Simplifications: no fixed vertices; the work on the hyperedges
    and incident nets between releasing both nodes and unregistering the
    contraction is the step between [CStart] and [CEnd] (it touches no word of
    this model; its own temporary acquisitions of u are left out); node weights
    and counters are unbounded naturals. *)
From Coq Require Import List Arith Lia Bool.
From Verif Require Import Base Batch.
Import ListNotations.
Local Open Scope nat_scope.

(** Shared state.  contraction_tree.h:163-260 (Node), dynamic_hypergraph.h
    (_acquired_hns, Hypernode::weight/enabled, _contraction_index, _version).
    [lk] stores the owner (ghost: the code stores one bit); [log] is ghost: the
    contractions (u,v) in the order in which they take effect. *)
Record G := mkG {
  par : nat -> nat;                     (* Node::_parent *)
  pend : nat -> nat;                    (* Node::_pending_contractions *)
  lk : nat -> option nat;               (* _acquired_hns *)
  en : nat -> bool;                     (* nodeIsEnabled *)
  wt : nat -> nat;                      (* nodeWeight *)
  iv : nat -> option (nat * nat);       (* Node::_interval, None = kInvalidHypernode *)
  ver : nat -> option nat;              (* Node::_version, None = kInvalidVersion *)
  ix : nat;                             (* _contraction_index *)
  cv : nat;                             (* DynamicHypergraph::_version *)
  log : list (nat * nat) }.

Definition upd {A} (f : nat -> A) (a : nat) (x : A) : nat -> A := fun b => if b =? a then x else f b.

Definition set_par g a x := mkG (upd (par g) a x) (pend g) (lk g) (en g) (wt g) (iv g) (ver g) (ix g) (cv g) (log g).
Definition set_pend g a x := mkG (par g) (upd (pend g) a x) (lk g) (en g) (wt g) (iv g) (ver g) (ix g) (cv g) (log g).
Definition set_lk g a x := mkG (par g) (pend g) (upd (lk g) a x) (en g) (wt g) (iv g) (ver g) (ix g) (cv g) (log g).
Definition set_ver g a x := mkG (par g) (pend g) (lk g) (en g) (wt g) (iv g) (upd (ver g) a x) (ix g) (cv g) (log g).
Definition set_iv g a x := mkG (par g) (pend g) (lk g) (en g) (wt g) (upd (iv g) a x) (ver g) (ix g) (cv g) (log g).
Definition set_ix g x := mkG (par g) (pend g) (lk g) (en g) (wt g) (iv g) (ver g) x (cv g) (log g).
Definition set_cv g x := mkG (par g) (pend g) (lk g) (en g) (wt g) (iv g) (ver g) (ix g) x (log g).
(** dynamic_hypergraph.cpp:560-561: weight of u updated, v disabled *)
Definition merge g x y :=
  mkG (par g) (pend g) (lk g) (upd (en g) y false) (upd (wt g) x (wt g x + wt g y))
      (iv g) (ver g) (ix g) (cv g) (log g ++ [(x, y)]).

(** Program counters of one thread. *)
Inductive pc :=
| Idle
(* registerContraction(u,v), contraction_tree.h:376-464 *)
| RAcq (u v : nat)       (* 380: acquire(v) *)
| RChk (u v : nat)       (* 384: parent(v) == v *)
| RPar (v w : nat)       (* 394: parent(w) != w *)
| RPend (v w : nat)      (* 394: pendingContractions(w) == 0 *)
| RUp (v w : nat)        (* 395-399: w = parent(w) *)
| RLoW (v w : nat)       (* 408: acquire(w), v released *)
| RLoV (v w : nat)       (* 409: acquire(v) *)
| RReV (v w : nat)       (* 410: parent(v) != v *)
| RHiW (v w : nat)       (* 416: acquire(w) *)
| RDbl (v w : nat)       (* 421: double check *)
| RFin (v w x : nat)     (* 429-434: x = parent(x) *)
| RFinC (v w x : nat)    (* 435: parent(x) != x *)
| RWr (v w : nat)        (* 371: node(u).incrementPendingContractions() *)
| RWr2 (v w : nat)       (* 372-373: node(v).setParent(u), setVersion *)
(* contract(v), dynamic_hypergraph.cpp:67-86 *)
| CRead (y : nat)        (* 71 and 83: x = parent(y) *)
(* contract(u,v) with u = x, v = y, dynamic_hypergraph.cpp:534-617 *)
| CAcq1 (x y : nat)      (* 539-545: acquire the smaller node *)
| CAcq2 (x y : nat)      (* 539-545: acquire the larger node *)
| CTest (x y : nat)      (* 551-561, 602-607 *)
| CUnr (x y : nat)       (* 608 -> contraction_tree.h:472 *)
| CUnr2 (x y : nat)      (* 608 -> contraction_tree.h:474-475 *)
| CStart (x y : nat)     (* 565: contraction_start = _contraction_index.load() *)
| CEnd (x y s : nat)     (* 567-597: hyperedge work; contraction_end = ++_contraction_index *)
| CAcqU (x y s e : nat)  (* 598: acquire(u) *)
| CDec (x y s e : nat)   (* 599 -> contraction_tree.h:472, 477 *)
(* release the nodes in the list one after the other, then continue *)
| Rel (l : list nat) (k : pc).

(** contraction_tree.h:402-417: acquire w in ascending order; if w < v, v is released first *)
Definition fnd (v w : nat) : pc := if w <? v then Rel [v] (RLoW v w) else RHiW v w.

(** dynamic_hypergraph.h:972-982: acquireHypernode spins until it gets the lock *)
Definition acquire (t : nat) (g : G) (a : nat) (k : pc) : option (G * pc) :=
  match lk g a with None => Some (set_lk g a (Some t), k) | Some _ => None end.

Definition after (l : list nat) (k : pc) : pc := match l with [] => k | _ => Rel l k end.

(** One step of thread [t]; [None]: the thread spins on a lock, or is idle.
    [mx] is max_node_weight. *)
Definition exec (mx t : nat) (g : G) (p : pc) : option (G * pc) :=
  match p with
  | Idle => None
  | RAcq u v => acquire t g v (RChk u v)
  | RChk u v => Some (g, if par g v =? v then RPar v u else Rel [v] Idle)
  | RPar v w => Some (g, if par g w =? w then fnd v w else RPend v w)
  | RPend v w => Some (g, if pend g w =? 0 then RUp v w else fnd v w)
  | RUp v w => let w' := par g w in Some (g, if w' =? v then Rel [v] Idle else RPar v w')
  | RLoW v w => acquire t g w (RLoV v w)
  | RLoV v w => acquire t g v (RReV v w)
  | RReV v w => Some (g, if par g v =? v then RDbl v w else Rel [v; w] Idle)
  | RHiW v w => acquire t g w (RDbl v w)
  | RDbl v w => Some (g, if negb (par g w =? w) && (pend g w =? 0) then Rel [w] (RPar v w) else RFin v w w)
  | RFin v w x => let x' := par g x in Some (g, if x' =? v then Rel [w; v] Idle else RFinC v w x')
  | RFinC v w x => Some (g, if par g x =? x then RWr v w else RFin v w x)
  | RWr v w => Some (set_pend g w (S (pend g w)), RWr2 v w)
  | RWr2 v w => Some (set_ver (set_par g v w) v (Some (cv g)), Rel [w; v] (CRead v))
  | CRead y => let x := par g y in Some (g, if x =? y then Idle else CAcq1 x y)
  | CAcq1 x y => acquire t g (Nat.min x y) (CAcq2 x y)
  | CAcq2 x y => acquire t g (Nat.max x y) (CTest x y)
  | CTest x y =>
      if en g y && (pend g y =? 0) && (wt g x + wt g y <=? mx)
      then Some (merge g x y, Rel [x; y] (CStart x y))
      else if negb (wt g x + wt g y <=? mx) && en g y && (par g y =? x)
      then Some (g, CUnr x y)
      else Some (g, Rel [x; y] Idle)
  | CUnr x y => Some (set_pend g x (pend g x - 1), CUnr2 x y)
  | CUnr2 x y => Some (set_ver (set_par g y y) y None, Rel [x; y] (CRead x))
  | CStart x y => Some (g, CEnd x y (ix g))
  | CEnd x y s => Some (set_ix g (S (ix g)), CAcqU x y s (S (ix g)))
  | CAcqU x y s e => acquire t g x (CDec x y s e)
  | CDec x y s e => Some (set_iv (set_pend g x (pend g x - 1)) y (Some (s, e)), Rel [x] (CRead x))
  | Rel [] k => Some (g, k)
  | Rel (a :: l) k => Some (set_lk g a None, after l k)
  end.

(** A system state: the shared state and the program counter of every thread
    (any number of threads). *)
Definition St := (G * (nat -> pc))%type.

(** nlevel_coarsener.h:250-273: a thread calls registerContraction(u,v) for any
    two different nodes - chosen from ratings that may be out of date - and, if
    it returns true, contract(v).  Between passes, when no thread is working,
    the version of the hypergraph is increased (dynamic_hypergraph.cpp:329,
    removeSinglePinAndParallelHyperedges: ++_version). *)
Inductive step (n mx : nat) : St -> St -> Prop :=
| S_call : forall g pcs t u v, pcs t = Idle -> u < n -> v < n -> u <> v ->
    step n mx (g, pcs) (g, upd pcs t (RAcq u v))
| S_exec : forall g pcs t g' p, exec mx t g (pcs t) = Some (g', p) ->
    step n mx (g, pcs) (g', upd pcs t p)
| S_version : forall g pcs, (forall t, pcs t = Idle) ->
    step n mx (g, pcs) (set_cv g (S (cv g)), pcs).

(** contraction_tree.cpp initialize / dynamic_hypergraph: every node is its own
    parent, enabled, unlocked and has its input weight. *)
Definition g0 (w0 : nat -> nat) : G :=
  mkG (fun v => v) (fun _ => 0) (fun _ => None) (fun _ => true) w0 (fun _ => None) (fun _ => None) 0 0 [].

Inductive run (n mx : nat) (w0 : nat -> nat) : St -> Prop :=
| run_0 : run n mx w0 (g0 w0, fun _ => Idle)
| run_S s s' : run n mx w0 s -> step n mx s s' -> run n mx w0 s'.

(** The contraction tree that is handed to the construction of the batch
    uncontraction hierarchy (property C80). *)
Definition tree_of (n : nat) (g : G) : ctree :=
  mkCt n (par g) (ver g) (fun v => match iv g v with Some (s, _) => s | None => 0 end)
                         (fun v => match iv g v with Some (_, e) => e | None => 0 end).
