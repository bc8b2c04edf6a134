(** GainComp.v - gain computation without a gain cache: precomputeGains of
    refinement/gains/{km1/km1,cut/cut,soed/soed}_gain_computation.h and computeMaxGainMove(ForScores) of
    refinement/gains/gain_computation_base.h:63-140.
    Simplifications: gains are unbounded integers; the rating map (ds::SparseMap) is the list of its entries in insertion order;
    the coin flipped when block [to] is tested is [coin to] (every block is tested at most once per call), the random index is [rnd]. *)
From Verif Require Import Base Spec SpecLemmas PHG PHGProofs GainCache GainCacheProofs Metrics.

(** tmp_scores[to] += x *)
Fixpoint sc_add (l : list (nat * Z)) (to : nat) (x : Z) : list (nat * Z) :=
  match l with
  | [] => [(to, x)]
  | (b, y) :: l' => if Nat.eqb b to then (b, y + x) :: l' else (b, y) :: sc_add l' to x
  end.
Definition sc_contains (l : list (nat * Z)) (b : nat) : bool := mem b (map fst l).

Section GC.
Variables (H : hypergraph) (o : objective) (s : phg).

(** What one incident hyperedge adds to isolated_block_gain. *)
Definition iso_edge (from e : nat) : Z :=
  match o with
  | Okm1 => if 1 <? pinCountInPart s e from then ew H e else 0                                      (* km1_gain_computation.h:74-76 *)
  | Ocut => if (conn s e =? 1) && (1 <? size_of H e) then ew H e else 0                             (* cut_gain_computation.h:71-74 *)
  | Osoed => if 1 <? size_of H e                                                                    (* soed_gain_computation.h:79-81 *)
             then if 1 <? pinCountInPart s e from then (if pinCountInPart s e from =? size_of H e then 2 else 1) * ew H e else 0 else 0
  end.
(** What it adds to the score of block [to] <> from of its connectivity set (None: the block is not visited). *)
Definition score_edge (from e to : nat) : option Z :=
  match o with
  | Okm1 => Some (ew H e)                                                                           (* km1_gain_computation.h:81-85 *)
  | Ocut => if (conn s e =? 1) && (1 <? size_of H e) then None
            else if (conn s e =? 2) && (pinCountInPart s e from =? 1) then Some (ew H e) else None  (* cut_gain_computation.h:75-85 *)
  | Osoed => if 1 <? size_of H e
             then Some ((if pinCountInPart s e to =? size_of H e - 1 then 2 else 1) * ew H e) else None (* soed_gain_computation.h:88-92 *)
  end.
Definition pre_edge (from : nat) (st : list (nat * Z) * Z) (e : nat) : list (nat * Z) * Z :=
  (fold_left (fun sc to => if Nat.eqb to from then sc else match score_edge from e to with Some x => sc_add sc to x | None => sc end)
     (connectivitySet s e) (fst st), snd st + iso_edge from e).
Definition precomputeGains (from hn : nat) : list (nat * Z) * Z := fold_left (pre_edge from) (inc H hn) ([], 0).

(** *** computeMaxGainMoveForScores, gain_computation_base.h:80-140 *)
Definition MAXG : Z := 2 ^ 31 - 1.
Variables (L : nat -> Z) (no_random rebalance non_adjacent allow_imbalance : bool) (coin : nat -> bool) (rnd : nat).
(** test_and_apply, :95-110; the state is (best_move.to, best_move.gain). *)
Definition test_block (hn : nat) (st : nat * Z) (to : nat) (score : Z) (no_tie : bool) : (nat * Z) * bool :=
  if ((score <? snd st) || ((score =? snd st) && negb no_random && (no_tie || coin to)))
     && (allow_imbalance || (partWeight s to + nw H hn <=? L to))
  then ((to, score), true) else (st, false).
(** :112-118 *)
Definition adj_loop (hn from : nat) (iso : Z) (sc : list (nat * Z)) (st : nat * Z) : nat * Z :=
  fold_left (fun st en => if Nat.eqb from (fst en) then st else fst (test_block hn st (fst en) (iso - snd en) false)) sc st.
(** :120-137 *)
Definition nonadj_loop (hn from : nat) (iso : Z) (sc : list (nat * Z)) (st : nat * Z) : (nat * Z) * list nat :=
  fold_left (fun '(st, l) to => if negb (Nat.eqb from to) && negb (sc_contains sc to)
                                then let '(st', b) := test_block hn st to iso true in (st', if b then l ++ [to] else l)
                                else (st, l)) (seq 0 (pk s)) (st, []).
Definition computeMaxGainMove (from hn : nat) : nat * Z :=
  let '(sc, iso) := precomputeGains from hn in
  let st := adj_loop hn from iso sc (from, if rebalance then MAXG else 0) in
  if non_adjacent && Nat.eqb (fst st) from then
    let '(st', l) := nonadj_loop hn from iso sc st in
    match l with
    | [] => st'
    | _ => (nth (rnd mod length l) l from, iso)
    end
  else st.
End GC.
