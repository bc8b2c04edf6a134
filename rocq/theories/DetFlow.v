(** DetFlow.v - deterministic flow refinement: applying the results of one matching of block pairs in parallel
    (mt-kahypar/partition/refinement/flows/deterministic/deterministic_flow_refinement_scheduler.cpp:63-186 refineImpl, 209-264
    changeNodePart and applyMoves; exact flow models, i.e. the cut, km1 and soed objectives: the parallel branch :137-140).

    The flow computations (:100-122) only read the partition; their results are arbitrary here.  Every block pair is one task, the
    tasks are executed by any interleaving of the steps of changeNodePart (Conc.v).  Fewer worker threads than tasks only means
    that some interleavings do not occur.  The guards of Conc.v (nobody else moves the node, the node is in the source block) are not
    assumed.  Not modelled: the steiner_tree branch (:141-150, sequential), timers, debug output. *)
From Verif Require Import Base Spec PHG GainCache Metrics Conc LPPool Scan DetLP.

(** BlockPair and MoveSequence::moves as (node, from, to): :83, flow_refiner.cpp:76-92. *)
Record task := mkT { t_i : nat; t_j : nat; t_mv : list (nat * nat * nat) }.
Record dst := mkD {
  d_c : cst;                               (* partition, gain cache and the calls of changeNodePart in progress *)
  d_todo : nat -> list (nat * nat * nat);  (* moves a task still has to apply *)
  d_imp : nat -> Z;                        (* improvement of every task, :240 *)
  d_new : list (nat * nat);                (* _new_cut_hes, in the order of streaming *)
  d_wm : list nat }.                       (* nodes with _was_moved set *)
Inductive dlabel := DNext (i : nat) | DAdv (i : nat).

Section DF.
Variables (H : hypergraph) (o : objective) (mops : hypergraph -> sync_update -> list mop) (n : nat).

(** applyMoves, :242-257.  [DNext]: the loop head, :242-244, and the call of changeNodePart up to its first access of shared data; a move
    inside a block is skipped.  [DAdv]: the next step inside changeNodePart; delta_func (:245-251) runs when the update of a hyperedge is
    complete; after the call the node is marked (:255). *)
Definition dstep (st : dst) (l : dlabel) : option dst :=
  let c := d_c st in
  match l with
  | DNext i =>
    if (i <? n)%nat && idleb (th c i) then
      match d_todo st i with
      | [] => None
      | (u, from, to) :: r =>
        if Nat.eqb from to then Some (mkD c (upd (d_todo st) i r) (d_imp st) (d_new st) (d_wm st))
        else Some (mkD (ubegin H c i (mkMv u from to MAXW)) (upd (d_todo st) i r) (d_imp st) (d_new st) (d_wm st))
      end
    else None
  | DAdv i =>
    if (i <? n)%nat then
      match adv H mops c i with
      | None => None
      | Some c' =>
        let '(imp', new') := match th c i with
                             | Incd _ _ su => (upd (d_imp st) i (d_imp st i - gain_of o su),
                                               if su_to_after su =? 1 then d_new st ++ [(su_he su, su_to su)] else d_new st)
                             | _ => (d_imp st, d_new st)
                             end in
        let wm' := match node_of (th c i), th c' i with Some u, Idle => u :: d_wm st | _, _ => d_wm st end in
        Some (mkD c' (d_todo st) imp' new' wm')
      end
    else None
  end.
Definition drun (st : dst) (l : list dlabel) : option dst := fold_opt dstep st l.
Definition dinit (s : phg) (c : cache) (wm : list nat) (T : nat -> task) : dst :=
  mkD (cinit s c) (fun i => t_mv (T i)) (fun _ => 0) [] wm.
(** The parallel_for :138-140 is over. *)
Definition ddone (st : dst) : Prop := forall i, (i < n)%nat -> d_todo st i = [] /\ th (d_c st) i = Idle.
End DF.

(** :137-140 for the results of one matching: some schedule leads from [s] to [s'], with the improvements [imps] of the tasks and the
    hyperedges [new] to be added to the quotient graph.  [mops]: the updates of the gain cache (none if gain cache updates are not
    forced or the gain cache is not initialized, :218-224). *)
Definition apply_matching (H : hypergraph) (o : objective) (mops : hypergraph -> sync_update -> list mop) (s : phg) (c : cache) (wm : list nat) (ts : list task)
    (s' : phg) (c' : cache) (wm' : list nat) (imps : list Z) (new : list (nat * nat)) : Prop :=
  exists ls st, drun H o mops (length ts) (dinit s c wm (fun i => nth i ts (mkT 0 1 []))) ls = Some st /\ ddone (length ts) st /\
    s' = sh (d_c st) /\ c' = gc (d_c st) /\ wm' = d_wm st /\ imps = map (d_imp st) (seq 0 (length ts)) /\ new = d_new st.

(** refineImpl, :71-167.  [next]: which block pairs are scheduled and what their flow computations return, :77, :100-122, :160: depends on
    the partition and on what has been reported so far (for every matching the block pairs, improvements and how often a hyperedge got a new block), not on the
    schedule (the bookkeeping of the scheduler is modelled in Participation.v: true of it unless two reports overlap, see C77).  The rounds, :76-167, only
    group the matchings; the end of a round or of the refinement is decided by [next] as well ([None]). *)
Definition report : Type := list task * list Z * (nat -> nat -> nat).
Definition new_of (new : list (nat * nat)) : nat -> nat -> nat :=
  fun e b => length (filter (fun x => Nat.eqb e (fst x) && Nat.eqb b (snd x)) new).
Section Refine.
Variables (H : hypergraph) (o : objective) (mops : hypergraph -> sync_update -> list mop) (next : partition -> list report -> option (list task)).
Inductive det_flow : phg -> cache -> list nat -> list report -> Z -> phg -> Z -> list report -> Prop :=
| df_stop s c wm h q : next (part s) h = None -> det_flow s c wm h q s q h
| df_match s c wm h q ts s1 c1 wm1 imps new s2 q2 h2 : next (part s) h = Some ts ->
    apply_matching H o mops s c wm ts s1 c1 wm1 imps new ->
    det_flow s1 c1 wm1 (h ++ [(ts, imps, new_of new)]) (q - sumZ (fun x => x) imps) s2 q2 h2 ->
    det_flow s c wm h q s2 q2 h2.
End Refine.
