(** Quotient.v - the quotient graph of flow-based refinement: for every pair of blocks the cut hyperedges and their weight
    (mt-kahypar/partition/refinement/flows/quotient_graph.cpp:41-44 addHyperedge, 47-52 reset, 68-84 addNewCutHyperedge, 87-111 initialize),
    and its maintenance by the two flow schedulers (flow_refinement_scheduler.cpp:552-557,
    deterministic/deterministic_flow_refinement_scheduler.cpp:150-156).
    push_back of a tbb::concurrent_vector and fetch_add are atomic steps; the loops over hyperedges run in parallel.  The connectivity
    set of a hyperedge is read at once. *)
From Verif Require Import Base Spec PHG GainCache Metrics Conc ParLoop DetLP FlowApply DetFlow.

(** cut_hes and cut_he_weight of the edge {i, j}, i < j *)
Record qst := mkQG { hes : nat -> nat -> list nat; hw : nat -> nat -> Z }.
Inductive qop := QPush (i j e : nat) | QWeight (i j : nat) (w : Z).
Definition qexec (op : qop) (q : qst) : qst :=
  match op with
  | QPush i j e => mkQG (upd2 (hes q) i j (hes q i j ++ [e])) (hw q)
  | QWeight i j w => mkQG (hes q) (upd2 (hw q) i j (hw q i j + w))
  end.
(** One iteration of a loop is the list of its remaining steps. *)
Definition qstep (l : list qop) (q : qst) : option (list qop * qst) :=
  match l with [] => None | op :: r => Some (r, qexec op q) end.

Section QG.
Variable H : hypergraph.
(** addHyperedge, :41-44 *)
Definition add_ops (i j e : nat) : list qop := [QPush i j e; QWeight i j (ew H e)].
(** The body of the loop over the hyperedges, :96-109 *)
Definition init_ops (s : phg) (e : nat) : list qop :=
  flat_map (fun i => flat_map (fun j => if (i <? j)%nat then add_ops i j e else []) (connectivitySet s e)) (connectivitySet s e).
Definition qreset : qst := mkQG (fun _ _ => []) (fun _ _ => 0).
(** initialize, :87-111 *)
Definition initialize (s : phg) (q : qst) : Prop := par qstep (map (init_ops s) (edges H)) qreset q.
(** addNewCutHyperedge, :68-84 *)
Definition new_ops (s : phg) (x : nat * nat) : list qop :=
  flat_map (fun other => if Nat.eqb other (snd x) then [] else add_ops (Nat.min (snd x) other) (Nat.max (snd x) other) (fst x)) (connectivitySet s (fst x)).
Definition addNewCutHyperedges (s : phg) (new : list (nat * nat)) (q q' : qst) : Prop := par qstep (map (new_ops s) new) q q'.

(** Deterministic flow refinement: the moves of a matching, then the new cut hyperedges (deterministic scheduler :150-156). *)
Inductive det_run (k : nat) (o : objective) (mops : hypergraph -> sync_update -> list mop) (valid : partition -> list task -> Prop) : phg -> qst -> phg -> qst -> Prop :=
| dr_done s q : det_run k o mops valid s q s q
| dr_match s q c wm ts s1 c1 wm1 imps new q1 s2 q2 : valid (part s) ts -> apply_matching H o mops s c wm ts s1 c1 wm1 imps new ->
    addNewCutHyperedges s1 new q q1 -> det_run k o mops valid s1 q1 s2 q2 -> det_run k o mops valid s q s2 q2.

(** Flow refinement: each search applies its sequence (under the lock) and adds the new cut hyperedges of a successful sequence
    (flow_refinement_scheduler.cpp:552-557); here before the next sequence is applied. *)
Definition blocks_known (nch : list (nat * option nat)) : list (nat * nat) :=
  flat_map (fun x => match snd x with Some b => [(fst x, b)] | None => [] end) nch.
Inductive flow_run (k : nat) (o : objective) (gcu : bool) (G : gain_policy) : fst_ -> qst -> list (list (nat * nat)) -> fst_ -> qst -> Prop :=
| fr_done st q : flow_run k o gcu G st q [] st q
| fr_call st q sq st1 imp stt nch q1 r st2 q2 : applyMoves H k o gcu G st sq = Some (st1, imp, stt, nch) ->
    match stt with SUCCESS => addNewCutHyperedges (f_s st1) (blocks_known nch) q q1 | _ => q1 = q end ->
    flow_run k o gcu G st1 q1 r st2 q2 -> flow_run k o gcu G st q (sq :: r) st2 q2.
End QG.
