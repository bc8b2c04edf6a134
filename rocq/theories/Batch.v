(** The batch uncontraction hierarchy of the contraction tree (n-level).

    /repo/mt-kahypar/datastructures/contraction_tree.h and
    /repo/mt-kahypar/datastructures/contraction_tree.cpp. *)
From Coq Require Import List Arith Lia Bool Permutation.
From Verif Require Import Base.
Import ListNotations.
Local Open Scope nat_scope.

(** contraction_tree.h:163-255 Node: parent, version ([None] is
    kInvalidVersion) and contraction interval of every node; the subtree size
    only determines priorities and is not modelled. *)
Record ctree := mkCt {
  ct_n : nat;
  ct_parent : nat -> nat;
  ct_ver : nat -> option nat;
  ct_start : nat -> nat;
  ct_end : nat -> nat }.

(** comparisons of versions, kInvalidVersion being the largest size_t *)
Definition vlt (a b : option nat) : bool :=
  match a, b with
  | Some x, Some y => x <? y
  | Some _, None => true
  | None, _ => false
  end.
Definition veq (a b : option nat) : bool :=
  match a, b with
  | Some x, Some y => x =? y
  | None, None => true
  | _, _ => false
  end.

(** contraction_tree.cpp:113-123: the comparator *)
Definition before (t : ctree) (u v : nat) : bool :=
  let vu := ct_ver t u in let vv := ct_ver t v in
  vlt vu vv ||
  (veq vu vv && (ct_end t v <? ct_end t u)) ||
  (veq vu vv && (ct_end t u =? ct_end t v) && (ct_start t v <? ct_start t u)) ||
  (veq vu vv && (ct_end t u =? ct_end t v) && (ct_start t u =? ct_start t v) && (u <? v)).

(** std::sort *)
Fixpoint sinsert (lt : nat -> nat -> bool) (x : nat) (l : list nat) : list nat :=
  match l with
  | [] => [x]
  | y :: l' => if lt y x then y :: sinsert lt x l' else x :: l
  end.
Definition isort (lt : nat -> nat -> bool) (l : list nat) : list nat :=
  fold_right (sinsert lt) [] l.

(** contraction_tree.cpp:61-123 finalize: the children of [u], sorted *)
Definition childs (t : ctree) (u : nat) : list nat :=
  isort (before t) (filter (fun v => (ct_parent t v =? u) && negb (v =? u)) (seq 0 (ct_n t))).

(** contraction_tree.cpp:125-135: the versions for which [u] is a root *)
Fixpoint stream_versions (t : ctree) (u : nat) (last : option nat) (l : list nat) : list (option nat) :=
  match l with
  | [] => []
  | v :: l' =>
      let vv := ct_ver t v in
      if negb (veq vv last) && vlt vv (ct_ver t u)
      then vv :: stream_versions t u vv l' else stream_versions t u vv l'
  end.
Definition version_roots (t : ctree) (k : nat) : list nat :=
  flat_map (fun u => map (fun _ => u)
    (filter (veq (Some k)) (stream_versions t u None (childs t u)))) (seq 0 (ct_n t)).

(** contraction_tree.cpp:366-373 (all contracted nodes have an interval) *)
Definition intersect (s1 e1 s2 e2 : nat) : bool :=
  ((s1 <=? e2) && (e2 <=? e1)) || ((s2 <=? e1) && (e1 <=? e2)).

(** contraction_tree.cpp:375-387 push_into_pq; an element of the queue is the
    list of the remaining children (the iterator pair) *)
Fixpoint skipv (t : ctree) (k : nat) (l : list nat) : list nat :=
  match l with
  | [] => []
  | v :: l' => if veq (ct_ver t v) (Some k) then l else skipv t k l'
  end.
Definition push_pq (t : ctree) (k : nat) (u : nat) : list (list nat) :=
  match skipv t k (childs t u) with [] => [] | l => [l] end.

(** contraction_tree.cpp:425-442: the siblings that join the group *)
Fixpoint more (t : ctree) (k lo hi : nat) (l : list nat) : list nat * list nat :=
  match l with
  | [] => ([], [])
  | w :: l' =>
      if veq (ct_ver t w) (Some k) && intersect lo hi (ct_start t w) (ct_end t w)
      then let '(g, r) := more t k (min lo (ct_start t w)) (max hi (ct_end t w)) l' in (w :: g, r)
      else ([], l)
  end.
(** contraction_tree.cpp:444-448 *)
Definition repush (t : ctree) (k : nat) (r : list nat) : list (list nat) :=
  match r with
  | [] => []
  | w :: _ => if veq (ct_ver t w) (Some k) then [r] else []
  end.

(** contraction_tree.h:41-48 BatchAssignment *)
Record asn := mkAsn { a_u : nat; a_v : nat; a_b : nat; a_pos : nat }.

(** contraction_tree.h:60-157 BatchIndexAssigner *)
Record assigner := mkSh { cnt : nat -> nat; siz : nat -> nat; hwm : nat }.

(** The position of a thread in one iteration of contraction_tree.cpp:409-472,
    with the group (u, g) it currently assigns. *)
Inductive tpc :=
| Ready
| Req (u : nat) (g : list nat)                        (* contraction_tree.h:76 *)
| Load (u : nat) (g : list nat)                       (* :77 *)
| Find (u : nat) (g : list nat) (i : nat) (up : bool) (* :131-143 *)
| Got (u : nat) (g : list nat) (i p : nat) (up : bool)(* :145 *)
| Up (u : nat) (g : list nat) (i p : nat)             (* :80-84 *)
| Done (u : nat) (g : list nat) (i p : nat)           (* contraction_tree.cpp:453-457 *)
| Mark.                                               (* :464-469 *)

Record thr := mkThr { tq : list (list nat); tnq : list (list nat); tcur : nat;
                      tasg : list asn; tpcr : tpc }.

Fixpoint assign_from (u i p : nat) (g : list nat) : list asn :=
  match g with [] => [] | v :: g' => mkAsn u v i p :: assign_from u i (S p) g' end.

Fixpoint pick {A} (n : nat) (l : list A) {struct l} : option (A * list A) :=
  match l with
  | [] => None
  | x :: l' => match n with
               | 0 => Some (x, l')
               | S n' => match pick n' l' with Some (y, r) => Some (y, x :: r) | None => None end
               end
  end.

(** One atomic step of a thread.  [c] chooses the element the priority queue
    returns (simplified: any element); [m] is the minimum of the racy reads of
    local_batch_indices at :465-468 (simplified: any value not larger than the
    own index).  The compare-exchange loops are atomic maxima. *)
Definition tstep (t : ctree) (k mx c m : nat) (s : assigner) (th : thr) : option (assigner * thr) :=
  match tpcr th with
  | Ready =>
      match pick c (tq th) with
      | Some (v :: l, q') =>
          let '(g, r) := more t k (ct_start t v) (ct_end t v) l in
          Some (s, mkThr (repush t k r ++ q') (tnq th ++ flat_map (push_pq t k) (v :: g))
                         (tcur th) (tasg th) (Req (ct_parent t v) (v :: g)))
      | _ => None
      end
  | Req u g =>
      Some (s, mkThr (tq th) (tnq th) (tcur th) (tasg th)
                 (if tcur th <=? hwm s then Load u g else Find u g (tcur th) false))
  | Load u g => Some (s, mkThr (tq th) (tnq th) (tcur th) (tasg th) (Find u g (hwm s) true))
  | Find u g i up =>
      let pos := cnt s i in
      Some (mkSh (upd (cnt s) i (pos + length g)) (siz s) (hwm s),
            mkThr (tq th) (tnq th) (tcur th) (tasg th)
              (if mx <=? pos then Find u g (S i) up else Got u g i pos up))
  | Got u g i p up =>
      Some (mkSh (cnt s) (upd (siz s) i (siz s i + length g)) (hwm s),
            mkThr (tq th) (tnq th) (tcur th) (tasg th) (if up then Up u g i p else Done u g i p))
  | Up u g i p =>
      Some (mkSh (cnt s) (siz s) (max (hwm s) i),
            mkThr (tq th) (tnq th) (tcur th) (tasg th) (Done u g i p))
  | Done u g i p =>
      match tq th with
      | [] => Some (s, mkThr (tnq th) [] (S i) (tasg th ++ assign_from u i p g) Mark)
      | _ => Some (s, mkThr (tq th) (tnq th) i (tasg th ++ assign_from u i p g) Ready)
      end
  | Mark =>
      Some (mkSh (cnt s) (siz s) (max (hwm s) (min m (tcur th))),
            mkThr (tq th) (tnq th) (tcur th) (tasg th) Ready)
  end.

(** contraction_tree.cpp:389-406: [dist] gives the roots pushed by each thread *)
Definition thr_init (t : ctree) (k : nat) (rs : list nat) : thr :=
  mkThr (flat_map (push_pq t k) rs) [] 0 [] Ready.
Definition sh_init : assigner := mkSh (fun _ => 0) (fun _ => 0) 0.

Inductive brun (t : ctree) (k mx : nat) (dist : list (list nat)) : assigner -> list thr -> Prop :=
| br_init : Permutation (concat dist) (version_roots t k) ->
    brun t k mx dist sh_init (map (thr_init t k) dist)
| br_step s ts1 th ts2 c m s' th' : brun t k mx dist s (ts1 ++ th :: ts2) ->
    tstep t k mx c m s th = Some (s', th') ->
    brun t k mx dist s' (ts1 ++ th' :: ts2).

Definition finished (ts : list thr) : Prop :=
  forall th, In th ts -> tq th = [] /\ tpcr th = Ready.
Definition assignments (ts : list thr) : list asn := flat_map tasg ts.

(** contraction_tree.h:104-119 numberOfNonEmptyBatches; [f] bounds the loops *)
Fixpoint down (s : assigner) (b : nat) : nat :=
  match b with
  | 0 => 0
  | S b' => if siz s b =? 0 then down s b' else b
  end.
Fixpoint upw (f : nat) (s : assigner) (b : nat) : nat :=
  match f with
  | 0 => b
  | S f' => if 0 <? siz s b then upw f' s (S b) else b
  end.
Definition numberOfNonEmptyBatches (f : nat) (s : assigner) : nat :=
  if siz s (hwm s) =? 0 then
    let b := down s (hwm s) in if 0 <? siz s b then S b else b
  else upw f s (hwm s).
(** contraction_tree.h:121-128 reset *)
Definition assigner_reset (s : assigner) (num : nat) : assigner :=
  mkSh (fun i => if i <? num then 0 else cnt s i) (fun i => if i <? num then 0 else siz s i) 0.
