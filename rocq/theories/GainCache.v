(** GainCache.v - attributed gains and the hypergraph gain caches for km1, cut and soed
    (mt-kahypar/partition/refinement/gains/{km1,cut,soed}/ *_attributed_gains.h, *_gain_cache.{h,cpp}).

    Simplifications: gains are unbounded [Z]; the flat array of |V|*(k+1) entries (penalty_index = u*(k+1),
    benefit_index = u*(k+1)+p+1, km1_gain_cache.h:278-287) is represented by the two functions [pen] and [ben]
    (injectivity of the index map is proved in GainIndex below).  This file is the sequential execution. *)
From Verif Require Import Base Spec PHG.

(** ---------- attributed gains ---------- *)
(** Km1AttributedGains::gain, km1_attributed_gains.h:40-43. *)
Definition km1_gain_of (su : sync_update) : Z :=
  (if su_to_after su =? 1 then su_weight su else 0) + (if su_from_after su =? 0 then - su_weight su else 0).
(** CutAttributedGains::gain, cut_attributed_gains.h:40-44. *)
Definition cut_gain_of (su : sync_update) : Z :=
  if 1 <? su_size su then
    Z.b2z (su_from_after su =? su_size su - 1) * su_weight su - Z.b2z (su_to_after su =? su_size su) * su_weight su
  else 0.
(** SoedAttributedGains::gain, soed_attributed_gains.h:40-54. *)
Definition soed_gain_of (su : sync_update) : Z :=
  let removes := Z.b2z (su_to_after su =? su_size su) in
  let makes := Z.b2z (su_from_after su =? su_size su - 1) in
  let inc_conn := Z.b2z (su_to_after su =? 1) in
  let dec_conn := Z.b2z (su_from_after su =? 0) in
  Z.b2z (1 <? su_size su) *
  (-2 * removes * su_weight su + 2 * makes * su_weight su
   + -1 * (1 - removes) * dec_conn * su_weight su + 1 * (1 - makes) * inc_conn * su_weight su).

(** ---------- gain cache state ---------- *)
Record cache := mkCache { pen : nat -> Z; ben : nat -> nat -> Z }.
Definition add_pen (c : cache) (u : nat) (x : Z) : cache := mkCache (upd (pen c) u (pen c u + x)) (ben c).
Definition add_ben (c : cache) (u b : nat) (x : Z) : cache := mkCache (pen c) (upd2 (ben c) u b (ben c u b + x)).
Definition set_pen (c : cache) (u : nat) (x : Z) : cache := mkCache (upd (pen c) u x) (ben c).

(** gain(u, _, to) = benefitTerm(u,to) - penaltyTerm(u): km1_gain_cache.h:164-170, cut :157-163, soed :167-173. *)
Definition cache_gain (c : cache) (u to : nat) : Z := ben c u to - pen c u.

(** Index maps, km1_gain_cache.h:278-287 (same in cut, soed). *)
Definition penalty_index (k u : nat) : nat := (u * (k + 1))%nat.
Definition benefit_index (k u p : nat) : nat := (u * (k + 1) + p + 1)%nat.

Definition blk (P : partition) (v : nat) : nat := match P v with Some b => b | None => 0%nat end.
Definition size_of (H : hypergraph) (e : nat) : Z := Z.of_nat (length (pins H e)).

(** ---------- km1 ---------- *)
(** Km1GainCache::deltaGainUpdate, km1_gain_cache.cpp:125-163.  [P] are the block ids at the time of the call. *)
Definition km1_delta (H : hypergraph) (P : partition) (c : cache) (su : sync_update) : cache :=
  let ps := pins H (su_he su) in
  let w := su_weight su in
  let c1 :=
    if su_from_after su =? 1 then
      fold_left (fun c u => if in_block P (su_from su) u then add_pen c u (- w) else c) ps c
    else if su_from_after su =? 0 then
      fold_left (fun c u => add_ben c u (su_from su) (- w)) ps c
    else c in
  if su_to_after su =? 1 then
    fold_left (fun c u => add_ben c u (su_to su) w) ps c1
  else if su_to_after su =? 2 then
    fold_left (fun c u => if in_block P (su_to su) u then add_pen c u w else c) ps c1
  else c1.

(** Contribution of one incident hyperedge during initialization: aggregate_contribution_of_he_for_node,
    km1_gain_cache.cpp:67-81 and initializeGainCacheEntryForNode :240-262. *)
Definition km1_init_pen (H : hypergraph) (s : phg) (blk_u e : nat) : Z :=
  if 1 <? pinCountInPart s e blk_u then ew H e else 0.
Definition km1_init_ben (H : hypergraph) (s : phg) (e : nat) : list (nat * Z) :=
  map (fun b => (b, ew H e)) (connectivitySet s e).

(** recomputePenaltyTerm, km1_gain_cache.h:235-248. *)
Definition km1_recompute_pen (H : hypergraph) (s : phg) (u : nat) : Z :=
  sumZ (fun e => if 1 <? pinCountInPart s e (blk (part s) u) then ew H e else 0) (inc H u).

(** ---------- cut ---------- *)
(** CutGainCache::deltaGainUpdate, cut_gain_cache.cpp:130-167. *)
Definition cut_part_delta (H : hypergraph) (c : cache) (su : sync_update) : cache :=
  let ps := pins H (su_he su) in
  let w := su_weight su in
  let c1 :=
    if su_from_after su =? su_size su - 1 then
      fold_left (fun c u => add_ben (add_pen c u (- w)) u (su_from su) w) ps c
    else if su_from_after su =? su_size su - 2 then
      fold_left (fun c u => add_ben c u (su_from su) (- w)) ps c
    else c in
  if su_to_after su =? su_size su then
    fold_left (fun c u => add_ben (add_pen c u w) u (su_to su) (- w)) ps c1
  else if su_to_after su =? su_size su - 1 then
    fold_left (fun c u => add_ben c u (su_to su) w) ps c1
  else c1.
Definition cut_delta (H : hypergraph) (P : partition) (c : cache) (su : sync_update) : cache :=
  if 1 <? su_size su then cut_part_delta H c su else c.

(** cut_gain_cache.cpp:66-86 and :254-281. *)
Definition cut_init_pen (H : hypergraph) (s : phg) (blk_u e : nat) : Z :=
  if (1 <? size_of H e) && (conn s e <=? 2) then
    if pinCountInPart s e blk_u =? size_of H e then ew H e else 0
  else 0.
Definition cut_init_ben (H : hypergraph) (s : phg) (e : nat) : list (nat * Z) :=
  if (1 <? size_of H e) && (conn s e <=? 2) then
    flat_map (fun b => if pinCountInPart s e b =? size_of H e - 1 then [(b, ew H e)] else []) (connectivitySet s e)
  else [].

(** ---------- soed ---------- *)
(** SoedGainCache::deltaGainUpdate, soed_gain_cache.cpp:135-203: the km1 rules followed by the cut rules, both
    only for hyperedges of size > 1. *)
Definition soed_delta (H : hypergraph) (P : partition) (c : cache) (su : sync_update) : cache :=
  if 1 <? su_size su then cut_part_delta H (km1_delta H P c su) su else c.

(** soed_gain_cache.cpp:67-89 and :342-370. *)
Definition soed_init_pen (H : hypergraph) (s : phg) (blk_u e : nat) : Z :=
  if 1 <? size_of H e then
    (Z.b2z (1 <? pinCountInPart s e blk_u) + Z.b2z (pinCountInPart s e blk_u =? size_of H e)) * ew H e
  else 0.
Definition soed_init_ben (H : hypergraph) (s : phg) (e : nat) : list (nat * Z) :=
  if 1 <? size_of H e then
    map (fun b => (b, (1 + Z.b2z (pinCountInPart s e b =? size_of H e - 1)) * ew H e)) (connectivitySet s e)
  else [].
(** soed_gain_cache.h:240-253. *)
Definition soed_recompute_pen (H : hypergraph) (s : phg) (u : nat) : Z :=
  sumZ (fun e => Z.b2z (1 <? size_of H e) *
     (Z.b2z (1 <? pinCountInPart s e (blk (part s) u)) + Z.b2z (pinCountInPart s e (blk (part s) u) =? size_of H e))
     * ew H e) (inc H u).
(** cut_gain_cache.h:230-244: recomputePenaltyTerm. *)
Definition cut_recompute_pen (H : hypergraph) (s : phg) (u : nat) : Z :=
  sumZ (fun e => if (1 <? size_of H e) && (pinCountInPart s e (blk (part s) u) =? size_of H e) then ew H e else 0)
       (inc H u).

(** ---------- initialization over all nodes ---------- *)
(** initializeGainCache, km1_gain_cache.cpp:38-117 (cut/soed identical up to the per-edge contribution).
    For each enabled node the incident hyperedges are processed in chunks (one chunk for low degree nodes, the
    sub-ranges of a parallel_for for high degree ones); every chunk adds to the local aggregators of its
    thread; the node's entries are then overwritten with the combined sums.  [sched u] are the chunks. *)
Record gain_policy := mkPolicy {
  gp_delta : hypergraph -> partition -> cache -> sync_update -> cache;
  gp_init_pen : hypergraph -> phg -> nat -> nat -> Z;
  gp_init_ben : hypergraph -> phg -> nat -> list (nat * Z);
  gp_recompute : hypergraph -> phg -> nat -> Z
}.
Definition km1_policy := mkPolicy km1_delta km1_init_pen km1_init_ben km1_recompute_pen.
Definition cut_policy := mkPolicy cut_delta cut_init_pen cut_init_ben cut_recompute_pen.
Definition soed_policy := mkPolicy soed_delta soed_init_pen soed_init_ben soed_recompute_pen.

Definition agg (b : nat) (l : list (nat * Z)) : Z := sumZ (fun p => if Nat.eqb (fst p) b then snd p else 0) l.
Definition initEntry (G : gain_policy) (H : hypergraph) (s : phg) (c : cache) (u : nat) (chunks : list (list nat)) : cache :=
  mkCache (upd (pen c) u (sumZ (fun ch => sumZ (gp_init_pen G H s (blk (part s) u)) ch) chunks))
          (fun v b => if Nat.eqb v u && (b <? pk s)%nat
                      then sumZ (fun ch => sumZ (fun e => agg b (gp_init_ben G H s e)) ch) chunks else ben c v b).
Definition initializeGainCache (G : gain_policy) (H : hypergraph) (s : phg) (sched : nat -> list (list nat)) (c : cache)
  : cache := fold_left (fun c u => initEntry G H s c u (sched u)) (nodes H) c.

(** ---------- gain-cache variant of changeNodePart, partitioned_hypergraph.h:656-677 ---------- *)
(** The code calls deltaGainUpdate after every single pin-count update; since it reads only block ids, pin
    lists and its argument (none of which the remaining updates change), the calls are performed after the loop. *)
Definition changeNodePartGC (G : gain_policy) (H : hypergraph) (s : phg) (c : cache) (u from to : nat) (maxw : Z)
  : option (phg * cache * bool) :=
  match changeNodePart H s u from to maxw with
  | None => None
  | Some (s', ok, sus) => Some (s', fold_left (gp_delta G H (part s')) sus c, ok)
  end.
(** recomputeInvalidTerms, km1_gain_cache.h:145-152. *)
Definition recomputeInvalidTerms (G : gain_policy) (H : hypergraph) (s : phg) (c : cache) (u : nat) : cache :=
  set_pen c u (gp_recompute G H s u).

(** Sessions: moves and recomputations in any order; [dirty] = nodes moved since their last recomputation. *)
Inductive gc_op := GMove (u from to : nat) (maxw : Z) | GRecompute (u : nat).
Definition gc_step (G : gain_policy) (H : hypergraph) (st : phg * cache * list nat) (o : gc_op)
  : option (phg * cache * list nat) :=
  let '(s, c, dirty) := st in
  match o with
  | GMove u f t m =>
    match changeNodePartGC G H s c u f t m with
    | None => None
    | Some (s', c', ok) => Some (s', c', if ok then u :: dirty else dirty)
    end
  | GRecompute u => Some (s, recomputeInvalidTerms G H s c u, remove Nat.eq_dec u dirty)
  end.
Definition gc_run G H st l := fold_opt (gc_step G H) st l.
