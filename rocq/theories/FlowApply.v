(** FlowApply.v - applying the results of flow-based refinement: FlowRefinementScheduler::applyMoves, partWeightUpdate,
    initializeImpl (block weights) and the result of refineImpl
    (mt-kahypar/partition/refinement/flows/flow_refinement_scheduler.cpp:225-378, 404-592).

    The searches run concurrently and compute their move sequences from partition states that may be out of date; the whole of
    applyMoves is executed under _apply_moves_lock (:477, :550) and nothing else changes the partition during refineImpl, so an execution
    is a list of applyMoves calls in the order in which they get the lock, with arbitrary sequences.  Not modelled here: the
    flow computations (which moves are proposed), the choice of the block pairs (ActiveBlocks.v) and the quotient graph (Quotient.v);
    statistics and time limits. *)
From Verif Require Import Base Spec PHG GainCache Metrics Scan DetLP.

(** MoveSequenceState, flow_common.h:34-42 *)
Inductive mstate := SUCCESS | VIOLATES_BALANCE_CONSTRAINT | WORSEN_SOLUTION_QUALITY | WORSEN_SOLUTION_QUALITY_WITHOUT_ROLLBACK.

Section Flow.
Variables (H : hypergraph) (k : nat) (o : objective) (L : nat -> Z) (gcu : bool) (G : gain_policy).
(** gcu: forceGainCacheUpdates() && isInitialized(); L: max_part_weights *)

(** The variables of one applyMoves call: partition, gain cache, improvement, new_cut_hes (None = kInvalidPartition), _was_moved. *)
Record acc := mkA { a_s : phg; a_c : cache; a_imp : Z; a_nch : list (nat * option nat); a_wm : list nat }.

(** delta_func, :492-500 *)
Definition delta_func (x : Z * list (nat * option nat)) (su : sync_update) : Z * list (nat * option nat) :=
  (fst x - gain_of o su, if su_to_after su =? 1 then snd x ++ [(su_he su, None)] else snd x).

(** changeNodePart, :407-425: no weight limit; the gain cache is only updated on demand.  The result is only asserted. *)
Definition chgF (x : acc) (u from to : nat) : option acc :=
  match changeNodePart H (a_s x) u from to MAXW with
  | None => None
  | Some (s', _, sus) =>
    let r := fold_left delta_func sus (a_imp x, a_nch x) in
    Some (mkA s' (if gcu then fold_left (gp_delta G H (part s')) sus (a_c x) else a_c x) (fst r) (snd r) (a_wm x))
  end.

(** :443-447: the trailing entries without a block get the block of the last move. *)
Fixpoint set_trailing (b : nat) (l : list (nat * option nat)) : list (nat * option nat) :=
  match l with
  | [] => []
  | (e, None) :: r => (e, Some b) :: set_trailing b r
  | r => r
  end.
Definition set_blocks (b : nat) (l : list (nat * option nat)) := rev (set_trailing b (rev l)).

(** applyMoveSequence, :427-449; a move is (node, from, to). *)
Fixpoint applyMoveSequence (x : acc) (l : list (nat * nat * nat)) : option acc :=
  match l with
  | [] => Some x
  | (u, from, to) :: r =>
    if Nat.eqb from to then applyMoveSequence x r
    else match chgF x u from to with
         | None => None
         | Some x1 => applyMoveSequence (mkA (a_s x1) (a_c x1) (a_imp x1) (set_blocks to (a_nch x1)) (u :: a_wm x1)) r
         end
  end.
(** revertMoveSequence, :452-464 *)
Fixpoint revertMoveSequence (x : acc) (l : list (nat * nat * nat)) : option acc :=
  match l with
  | [] => Some x
  | (u, from, to) :: r =>
    if Nat.eqb from to then revertMoveSequence x r
    else match chgF x u to from with
         | None => None
         | Some x1 => revertMoveSequence x1 r
         end
  end.

(** partWeightUpdate, :567-593: block by block, with an undo loop at the first block that would become too heavy. *)
Fixpoint undo (m : Z) (d pw : nat -> Z) (i : nat) : nat -> Z :=
  match i with
  | O => pw
  | S j => undo m d (upd pw j (pw j - m * d j)) j
  end.
Fixpoint pwu_from (n i : nat) (m : Z) (d mx pw : nat -> Z) : (nat -> Z) * bool :=
  match n with
  | O => (pw, true)
  | S n' => if mx i <? pw i + m * d i then (undo m d pw i, false)
            else pwu_from n' (S i) m d mx (upd pw i (pw i + m * d i))
  end.
Definition partWeightUpdate (d mx pw : nat -> Z) (rollback : bool) : (nat -> Z) * bool :=
  pwu_from k 0 (if rollback then -1 else 1) d mx pw.

(** :479-488: the current block of every node of the sequence, and the weight differences. *)
Fixpoint set_from (s : phg) (l : list (nat * nat)) : option (list (nat * nat * nat)) :=
  match l with
  | [] => Some []
  | (u, to) :: r => match part s u, set_from s r with
                    | Some from, Some r' => Some ((u, from, to) :: r')
                    | _, _ => None
                    end
  end.
Definition delta_step (d : nat -> Z) (m : nat * nat * nat) : nat -> Z :=
  let '(u, from, to) := m in
  if Nat.eqb from to then d
  else let d1 := upd d from (d from - nw H u) in upd d1 to (d1 to + nw H u).
Definition part_weight_deltas (l : list (nat * nat * nat)) : nat -> Z := fold_left delta_step l (fun _ => 0).

(** State between two calls: partition, gain cache, _was_moved, _part_weights; _max_part_weights is fixed. *)
Record fst_ := mkF { f_s : phg; f_c : cache; f_wm : list nat; f_pw : nat -> Z; f_mx : nat -> Z }.

(** applyMoves, :469-560: new state, improvement, state of the sequence, new_cut_hes. *)
Definition applyMoves (st : fst_) (sq : list (nat * nat)) : option (fst_ * Z * mstate * list (nat * option nat)) :=
  match set_from (f_s st) sq with
  | None => None
  | Some l =>
    let d := part_weight_deltas l in
    let '(pw1, bal1) := partWeightUpdate d (f_mx st) (f_pw st) false in
    if bal1 then
      match applyMoveSequence (mkA (f_s st) (f_c st) 0 [] (f_wm st)) l with
      | None => None
      | Some x =>
        if a_imp x <? 0 then
          let '(pw2, bal2) := partWeightUpdate d (f_mx st) pw1 true in
          if bal2 then
            match revertMoveSequence x l with
            | None => None
            | Some y => Some (mkF (a_s y) (a_c y) (a_wm y) pw2 (f_mx st), a_imp y, WORSEN_SOLUTION_QUALITY, a_nch y)
            end
          else Some (mkF (a_s x) (a_c x) (a_wm x) pw2 (f_mx st), a_imp x, WORSEN_SOLUTION_QUALITY_WITHOUT_ROLLBACK, a_nch x)
        else Some (mkF (a_s x) (a_c x) (a_wm x) pw1 (f_mx st), a_imp x, SUCCESS, a_nch x)
      end
    else Some (mkF (f_s st) (f_c st) (f_wm st) pw1 (f_mx st), 0, VIOLATES_BALANCE_CONSTRAINT, [])
  end.

(** initializeImpl, :357-368 *)
Definition initialize (s : phg) (c : cache) (wm : list nat) : fst_ :=
  mkF s c wm (wt s) (fun b => Z.max (wt s b) (L b)).

(** The applyMoves calls of one refineImpl, in lock order (an empty sequence is not applied, :232). *)
Fixpoint flow_calls (st : fst_) (l : list (list (nat * nat))) : option (fst_ * list (Z * mstate)) :=
  match l with
  | [] => Some (st, [])
  | sq :: r =>
    match applyMoves st sq with
    | None => None
    | Some (st1, imp, stt, _) =>
      match flow_calls st1 r with
      | None => None
      | Some (st2, out) => Some (st2, (imp, stt) :: out)
      end
    end
  end.

(** refineImpl, :249-355: partition, gain cache, best_metrics.quality, return value, results of the calls.
    The recomputation loop :343-350 visits the nodes in any order (each entry is written once). *)
Definition refine_flow (s : phg) (c : cache) (wm : list nat) (q : Z) (l : list (list (nat * nat)))
  : option (phg * cache * Z * bool * list (Z * mstate)) :=
  match flow_calls (initialize s c wm) l with
  | None => None
  | Some (st, out) =>
    let overall_delta := - sumZ fst out in
    Some (f_s st,
          if gcu then fold_left (recomputeInvalidTerms G H (f_s st)) (f_wm st) (f_c st) else f_c st,
          q + overall_delta, overall_delta <? 0, out)
  end.
End Flow.
