(** DetLP.v - deterministic label propagation,
    mt-kahypar/partition/refinement/deterministic/deterministic_label_propagation.cpp.
    computeMaxGainMove (gains/gain_computation_base.h:63-140, called with randomization disabled) is an arbitrary function [cand] of the
    partition; buffered vectors are lists in any order; tbb::parallel_sort is any sorted permutation; the parallel loops that execute
    moves are all interleavings of the steps of changeNodePart (Conc.v). *)
From Verif Require Import Base Spec PHG Conc ConcMore Objective GainCache Metrics PropsA Scan Revert Prefixes ParLoop.

(** Move (datastructures/hypergraph_common.h:91-104), gain already negated (cpp:91). *)
Record lmv := mkL { ln : nat; lfrom : nat; lto : nat; lgain : Z }.
Definition lswap (m : lmv) : lmv := mkL (ln m) (lto m) (lfrom m) (lgain m).
(** cpp:204-206, 337-339 *)
Definition lbefore (m1 m2 : lmv) : Prop := lgain m2 < lgain m1 \/ (lgain m1 = lgain m2 /\ (ln m1 < ln m2)%nat).
Definition sorted_of (l l' : list lmv) : Prop := Permutation l l' /\ StronglySorted lbefore l'.

Section LP.
Variables (H : hypergraph) (k : nat) (L : nat -> Z) (fixed : nat -> bool) (cand : partition -> nat -> option (nat * Z)).
Variable o : objective.
Definition gain_of : sync_update -> Z := match o with Ocut => cut_gain_of | Okm1 => km1_gain_of | Osoed => soed_gain_of end.
Local Notation w := (nw H).

(** cpp:83-95: the moves proposed by the nodes of a range. *)
Definition propose (P : partition) (u : nat) : list lmv :=
  match P u, cand P u with
  | Some from, Some (to, g) => if negb (fixed u) && (0 <? g) && negb (Nat.eqb to from) then [mkL u from to g] else []
  | _, _ => []
  end.
Definition cands (P : partition) (rng : list nat) : list lmv := flat_map (propose P) rng.

(** performMoveWithAttributedGain and applyMovesIf, cpp:141-192: concurrent calls of changeNodePart without weight limit; the result is
    the sum of the negated attributed gains. *)
Definition tomv (m : lmv) : mv := mkMv (ln m) (lfrom m) (lto m) MAXW.
Definition apply_all (ms : list lmv) (s s' : phg) (g : Z) : Prop :=
  exists n cu c l st, crun H n cu (cinit s c) l = Some st /\ quiescent n st /\ Permutation (begins l) (map tomv ms) /\
    s' = sh st /\ g = - sumZ gain_of (log st).
(** apply the moves, and execute the inverse moves if that made the objective worse (cpp:276-289, 374-397) *)
Definition apply_or_revert (ms : list lmv) (s s' : phg) (g : Z) (rev : bool) : Prop :=
  exists s1 g1, apply_all ms s s1 g1 /\
    (if g1 <? 0 then rev = true /\ exists g2, apply_all (map lswap ms) s1 s' g2 /\ g = g1 + g2
     else rev = false /\ s' = s1 /\ g = g1).

(** *** applyMovesByMaximalPrefixesInBlockPairs, cpp:294-399 *)
(** int32 budget divided by a size_t: the budget is converted to uint64; the results are converted to int32 (cpp:355-356). *)
Definition divu (budget m : Z) : Z := (budget mod 2^64) / m.
Definition to32 (x : Z) : Z := (x + 2^31) mod 2^32 - 2^31.
Definition lbound (budget involvements : Z) : Z := to32 ((- divu budget (Z.max 1 involvements)) mod 2^64).
Definition ubound (budget involvements : Z) : Z := to32 (divu budget (Z.max 1 involvements)).
(** The sorted moves of each direction (cpp:302-306, 333-345). *)
Definition dirs_ok (ms : list lmv) (dirs : nat -> nat -> list lmv) : Prop :=
  forall p1 p2, (p1 < k)%nat -> (p2 < k)%nat -> sorted_of (filter (fun m => Nat.eqb (lfrom m) p1 && Nat.eqb (lto m) p2) ms) (dirs p1 p2).
Section Stage1.
Variables (dirs : nat -> nat -> list lmv) (pw : nat -> Z).
Definition isnil {A} (l : list A) : bool := match l with [] => true | _ => false end.
(** cpp:313-329: number of blocks with moves into b *)
Definition involvements (b : nat) : Z := Z.of_nat (length (filter (fun q => negb (Nat.eqb q b) && negb (isnil (dirs q b))) (seq 0 k))).
Definition cw (l : list lmv) (e : nat) : Z := sumZ (fun m => w (ln m)) (firstn e l).
(** cpp:353-372, for p1 < p2 *)
Definition best_prefix (p1 p2 : nat) : nat * nat :=
  let d12 := dirs p1 p2 in let d21 := dirs p2 p1 in
  let lb := lbound (L p1 - pw p1) (involvements p1) in let ub := ubound (L p2 - pw p2) (involvements p2) in
  match recf (cw d12) (cw d21) lb ub 2000 (S (length d12 + length d21)) 0 (length d12) 0 (length d21) with
  | Some r => r
  | None => (0, 0)%nat
  end.
Definition swap_prefix (p1 p2 : nat) : nat := if Nat.ltb p1 p2 then fst (best_prefix p1 p2) else snd (best_prefix p2 p1).
Definition applied : list lmv := flat_map (fun pq => firstn (swap_prefix (fst pq) (snd pq)) (dirs (fst pq) (snd pq))) (list_prod (seq 0 k) (seq 0 k)).
Definition leftover : list lmv := flat_map (fun pq => skipn (swap_prefix (fst pq) (snd pq)) (dirs (fst pq) (snd pq))) (list_prod (seq 0 k) (seq 0 k)).
End Stage1.
(** The block weights; the vectors indexed by a block have k entries. *)
Definition pws (s : phg) (b : nat) : Z := if Nat.ltb b k then partWeight s b else 0.
Definition stage1 (ms : list lmv) (s s' : phg) (g : Z) (rev : bool) (A R : list lmv) : Prop :=
  exists dirs, dirs_ok ms dirs /\ A = applied dirs (pws s) /\ R = leftover dirs (pws s) /\ apply_or_revert A s s' g rev.

(** *** applyMovesSortedByGainAndRevertUnbalanced, cpp:201-291 *)
(** aggregatePartWeightDeltas, cpp:180-199 plus the current weights (cpp:211-220) *)
Definition delta (ms : list lmv) (b : nat) : Z :=
  sumZ (fun m => (if Nat.eqb (lto m) b then w (ln m) else 0) - (if Nat.eqb (lfrom m) b then w (ln m) else 0)) ms.
Definition overl (pw : nat -> Z) : nat := length (filter (fun b => L b <? pw b) (seq 0 k)).
Section Stage2.
Variable sm : list lmv.
Definition dm : lmv := mkL 0 0 0 0.
Definition mvi (i : nat) : lmv := nth i sm dm.
(** revert_move, cpp:226-234 *)
Definition rev_pw (pw : nat -> Z) (m : lmv) : nat -> Z :=
  let pw1 := upd pw (lto m) (pw (lto m) - w (ln m)) in upd pw1 (lfrom m) (pw1 (lfrom m) + w (ln m)).
Definition rev_nov (pw' : nat -> Z) (m : lmv) (nov : nat) : nat := if pw' (lto m) <=? L (lto m) then (nov - 1)%nat else nov.
(** cpp:236-242 *)
Fixpoint lp1 (j : nat) (pw : nat -> Z) (nov : nat) (val : nat -> bool) : (nat -> Z) * nat * (nat -> bool) :=
  match j with
  | O => (pw, nov, val)
  | S i => if Nat.eqb nov 0 then (pw, nov, val)
           else let m := mvi i in
                if (L (lto m) <? pw (lto m)) && (pw (lfrom m) + w (ln m) <=? L (lfrom m)) then
                  let pw' := rev_pw pw m in lp1 i pw' (rev_nov pw' m nov) (upd val i false)
                else lp1 i pw nov val
  end.
(** cpp:249-271; an access to moves[-1] or running out of fuel gives None. *)
Fixpoint lp2 (fuel j lv : nat) (pw : nat -> Z) (nov : nat) (val : nat -> bool) : option ((nat -> Z) * nat * (nat -> bool)) :=
  match fuel with
  | O => None
  | S n =>
    if Nat.eqb nov 0 then Some (pw, nov, val)
    else
      let j1 := if Nat.eqb j 0 then lv else j in
      let lv1 := if Nat.eqb j 0 then 0%nat else lv in
      match j1 with
      | O => None
      | S i =>
        let m := mvi i in
        if val i && (L (lto m) <? pw (lto m)) then
          let nov1 := if (L (lfrom m) <? pw (lfrom m) + w (ln m)) && (pw (lfrom m) <=? L (lfrom m)) then S nov else nov in
          let pw' := rev_pw pw m in
          lp2 n i lv1 pw' (rev_nov pw' m nov1) (upd val i false)
        else lp2 n i (if Nat.eqb lv1 0 && val i then S i else lv1) pw nov val
      end
  end.
Definition valid_moves (val : nat -> bool) : list lmv := flat_map (fun i => if val i then [mvi i] else []) (seq 0 (length sm)).
End Stage2.
(** Which moves remain valid (cpp:208-274); [None] if the second loop does not end within [fuel] steps or leaves the vector. *)
Definition keep (fuel : nat) (sm : list lmv) (pw : nat -> Z) : option (nat -> bool) :=
  let pw0 := fun b => pw b + delta sm b in
  let '(pw1, nov1, val1) := lp1 sm (length sm) pw0 (overl pw0) (fun _ => true) in
  if negb (Nat.eqb nov1 0) && Nat.eqb (overl pw) 0
  then match lp2 sm fuel (length sm) 0 pw1 nov1 val1 with Some (_, _, val) => Some val | None => None end
  else Some val1.
Definition stage2 (ms : list lmv) (s s' : phg) (g : Z) (rev : bool) (V : list lmv) : Prop :=
  exists sm fuel val, sorted_of ms sm /\ keep fuel sm (pws s) = Some val /\ V = valid_moves sm val /\ apply_or_revert V s s' g rev.

(** *** One sub-round, cpp:76-113 *)
(** The vectors of moves passed to applyMovesIf. *)
Definition batches (ms : list lmv) (rev : bool) : list (list lmv) := ms :: (if rev then [map lswap ms] else []).
Definition lp_sub (rng : list nat) (s s' : phg) (g : Z) (rev : bool) (nm : nat) (moved : list (list lmv)) : Prop :=
  exists ms, Permutation (cands (part s) rng) ms /\ nm = length ms /\
    (if isnil ms then s' = s /\ g = 0 /\ rev = false /\ moved = []
     else exists s1 g1 A R, stage1 ms s s1 g1 rev A R /\
       (if (0 <? g1) && negb (isnil R)
        then exists R' g2 rev2 V, Permutation R R' /\ stage2 R' s1 s' g2 rev2 V /\ g = g1 + g2 /\ moved = batches A rev ++ batches V rev2
        else s' = s1 /\ g = g1 /\ moved = batches A rev)).

(** *** Activation of the neighbours of moved nodes, cpp:150-171
    The marks last_moved_in_round[he + n] and last_moved_in_round[v] are true if they hold the current round; active_nodes is a
    multiset.  The calls happen in the parallel loop that executes the moves, but touch other memory, and changeNodePart without a
    weight limit always succeeds; so they are a parallel loop of their own. *)
Record act := mkA { em : nat -> bool; vm : nat -> bool; aq : nat -> nat }.
Variable thr : nat.   (* hyperedge_size_activation_threshold *)
Inductive apc := AEdge (es : list nat) | AStore (e : nat) (es : list nat) | APins (vs es : list nat) | ACas (v : nat) (vs es : list nat).
Definition astep (l : apc) (a : act) : option (apc * act) :=
  match l with
  | AEdge [] => None
  | AEdge (e :: es) => Some (if Nat.leb (length (pins H e)) thr && negb (em a e) then AStore e es else AEdge es, a)
  | AStore e es => Some (APins (pins H e) es, mkA (upd (em a) e true) (vm a) (aq a))
  | APins [] es => Some (AEdge es, a)
  | APins (v :: vs) es => Some (if vm a v then APins vs es else ACas v vs es, a)
  | ACas v vs es => Some (APins vs es, if vm a v then a else mkA (em a) (upd (vm a) v true) (upd (aq a) v (S (aq a v))))
  end.
Definition activate_batch (ms : list lmv) (a a' : act) : Prop := par astep (map (fun m => AEdge (inc H (ln m))) ms) a a'.
Fixpoint activate (bs : list (list lmv)) (a a' : act) : Prop :=
  match bs with [] => a' = a | b :: bs => exists a1, activate_batch b a a1 /\ activate bs a1 a' end.
Definition act0 : act := mkA (fun _ => false) (fun _ => false) (fun _ => 0%nat).

(** *** refineImpl, cpp:40-125 *)
(** The sub-rounds of one round, cpp:72-113. *)
Inductive lp_subs : list (list nat) -> phg -> act -> phg -> act -> Z -> bool -> nat -> Prop :=
| subs_nil : forall s a, lp_subs [] s a s a 0 false 0
| subs_cons : forall rng rs s a s1 a1 s2 a2 g1 r1 n1 moved g2 r2 n2,
    lp_sub rng s s1 g1 r1 n1 moved -> activate moved a a1 -> lp_subs rs s1 a1 s2 a2 g2 r2 n2 ->
    lp_subs (rng :: rs) s a s2 a2 (g1 + g2) (r1 || r2) (n1 + n2).
(** [ranges it act n]: the node ranges of the n sub-rounds of round it, drawn by the seeded permutation from the sorted vector of
    active nodes (from all nodes if it is empty), cpp:62-80.  [useact]: use_active_node_set. *)
Variables (useact : bool) (ranges : nat -> list nat -> nat -> list (list nat)).
(** [lp_iters r it n act s s' g]: at most r further rounds. *)
Inductive lp_iters : nat -> nat -> nat -> list nat -> phg -> phg -> Z -> Prop :=
| it_end : forall it n ac s, lp_iters 0 it n ac s s 0
| it_stop : forall r it n ac sac s s' a g rev, Permutation ac sac -> StronglySorted le sac ->
    lp_subs (ranges it (if useact then sac else []) n) s act0 s' a g rev 0 -> lp_iters (S r) it n ac s s' g
| it_next : forall r it n ac sac s s1 a g1 rev nm ac' s2 g2, Permutation ac sac -> StronglySorted le sac ->
    lp_subs (ranges it (if useact then sac else []) n) s act0 s1 a g1 rev nm -> nm <> 0%nat ->
    (forall v, count_occ Nat.eq_dec ac' v = aq a v) ->
    lp_iters r (S it) (if rev then Nat.min 256 (n * 2) else n) ac' s1 s2 g2 -> lp_iters (S r) it n ac s s2 (g1 + g2).
Definition lp_refine (max_iter n0 : nat) (s s' : phg) (g : Z) : Prop := lp_iters max_iter 0 n0 [] s s' g.
End LP.
