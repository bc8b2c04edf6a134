(** PHG.v - sequential model of PartitionedHypergraph
    (mt-kahypar/datastructures/partitioned_hypergraph.h).

    Simplifications (apply to the whole file): ids are [nat], weights are unbounded [Z] (no 32-bit overflow), the
    pin-count array and the connectivity bitset are total functions (their bit level encodings are modelled in
    PinCounts.v / ConSet.v).  An operation that would violate one of the code's (debug-only) ASSERTs, index
    out of range or wrap an unsigned counter below 0 returns [None]. *)
From Verif Require Import Base Spec.

(** partitioned_hypergraph.h:1279-1306 (members): _k, _part_ids (None = kInvalidPartition), _part_weights,
    _con_info (pin counts [pc e b] and connectivity-set bits [cs e b]). *)
Record phg := mkPHG {
  pk   : nat;
  part : nat -> option nat;
  wt   : nat -> Z;
  pc   : nat -> nat -> Z;
  cs   : nat -> nat -> bool
}.

(** Constructor partitioned_hypergraph.h:107-123: everything unassigned / zero. *)
Definition phg_init (k : nat) : phg :=
  mkPHG k (fun _ => None) (fun _ => 0) (fun _ _ => 0) (fun _ _ => false).

(** resetPartition, partitioned_hypergraph.h:788-794. *)
Definition resetPartition (s : phg) : phg := phg_init (pk s).

(** ConnectivitySets::add / remove are both an xor of the bit (connectivity_set.h, toggle); therefore adding a
    block twice removes it. *)
Definition toggle (s : phg) (e b : nat) : phg :=
  mkPHG (pk s) (part s) (wt s) (pc s) (upd2 (cs s) e b (negb (cs s e b))).
Definition addBlock := toggle.
Definition removeBlock := toggle.
Definition setPinCountInPart (s : phg) (e b : nat) (c : Z) : phg :=
  mkPHG (pk s) (part s) (wt s) (upd2 (pc s) e b c) (cs s).

(** decrementPinCountOfBlock, partitioned_hypergraph.h:1256-1265. *)
Definition decrementPinCountOfBlock (s : phg) (e b : nat) : option (phg * Z) :=
  if (b <? pk s)%nat && (0 <? pc s e b) then
    let after := pc s e b - 1 in
    let s' := setPinCountInPart s e b after in
    Some (if after =? 0 then removeBlock s' e b else s', after)
  else None.

(** incrementPinCountOfBlock, partitioned_hypergraph.h:1268-1277. *)
Definition incrementPinCountOfBlock (s : phg) (e b : nat) : option (phg * Z) :=
  if (b <? pk s)%nat then
    let after := pc s e b + 1 in
    let s' := setPinCountInPart s e b after in
    Some (if after =? 1 then addBlock s' e b else s', after)
  else None.

(** SynchronizedEdgeUpdate (datastructures/synchronized_edge_update.h:36-52), without the target-graph fields. *)
Record sync_update := mkSync {
  su_he : nat; su_from : nat; su_to : nat; su_weight : Z; su_size : Z;
  su_from_after : Z; su_to_after : Z
}.

(** updatePinCountOfHyperedge, partitioned_hypergraph.h:1235-1253: returns the record handed to delta_func. *)
Definition updatePinCountOfHyperedge (H : hypergraph) (s : phg) (e from to : nat) : option (phg * sync_update) :=
  match decrementPinCountOfBlock s e from with
  | None => None
  | Some (s1, fa) =>
    match incrementPinCountOfBlock s1 e to with
    | None => None
    | Some (s2, ta) =>
      Some (s2, mkSync e from to (ew H e) (Z.of_nat (length (pins H e))) fa ta)
    end
  end.

(** The loop over incidentEdges(u) in changeNodePart, partitioned_hypergraph.h:613-615; the list collects the
    arguments of delta_func in call order. *)
Fixpoint updateEdges (H : hypergraph) (s : phg) (l : list nat) (from to : nat) : option (phg * list sync_update) :=
  match l with
  | [] => Some (s, [])
  | e :: r =>
    match updatePinCountOfHyperedge H s e from to with
    | None => None
    | Some (s1, su) =>
      match updateEdges H s1 r from to with
      | None => None
      | Some (s2, sus) => Some (s2, su :: sus)
      end
    end
  end.

(** setOnlyNodePart, partitioned_hypergraph.h:572-576. *)
Definition setOnlyNodePart (s : phg) (u p : nat) : option phg :=
  if (p <? pk s)%nat then
    match part s u with
    | Some _ => None
    | None => Some (mkPHG (pk s) (upd (part s) u (Some p)) (wt s) (pc s) (cs s))
    end
  else None.

Fixpoint incrementEdges (s : phg) (l : list nat) (p : nat) : option phg :=
  match l with
  | [] => Some s
  | e :: r => match incrementPinCountOfBlock s e p with
              | None => None
              | Some (s', _) => incrementEdges s' r p
              end
  end.

(** setNodePart, partitioned_hypergraph.h:578-584. *)
Definition setNodePart (H : hypergraph) (s : phg) (u p : nat) : option phg :=
  match setOnlyNodePart s u p with
  | None => None
  | Some s1 =>
    incrementEdges (mkPHG (pk s1) (part s1) (upd (wt s1) p (wt s1 p + nw H u)) (pc s1) (cs s1)) (inc H u) p
  end.

(** changeNodePart, partitioned_hypergraph.h:590-621.  [maxw] is max_weight_to. *)
Definition changeNodePart (H : hypergraph) (s : phg) (u from to : nat) (maxw : Z)
  : option (phg * bool * list sync_update) :=
  if in_block (part s) from u && negb (Nat.eqb from to) && (to <? pk s)%nat then
    let wu := nw H u in
    let to_weight_after := wt s to + wu in
    let w1 := upd (wt s) to to_weight_after in
    if to_weight_after <=? maxw then
      let s1 := mkPHG (pk s) (upd (part s) u (Some to)) (upd w1 from (w1 from - wu)) (pc s) (cs s) in
      match updateEdges H s1 (inc H u) from to with
      | None => None
      | Some (s2, sus) => Some (s2, true, sus)
      end
    else
      Some (mkPHG (pk s) (part s) (upd w1 to (w1 to - wu)) (pc s) (cs s), false, [])
  else None.

(** initializeBlockWeights, partitioned_hypergraph.h:1179-1196, and applyPartWeightUpdates :1173-1177.
    [chunks] are the sub-ranges of the static partitioner in the order in which they are applied.  Each chunk
    computes local sums and adds them; the k fetch_adds of one chunk are taken together (they commute).
    Reading pws[-1] for an unassigned node is [None]. *)
Definition chunkWeight (H : hypergraph) (P : partition) (chunk : list nat) (p : nat) : Z :=
  sumZ (fun u => if in_block P p u then nw H u else 0) chunk.
Definition assigned (P : partition) (k : nat) (u : nat) : bool :=
  match P u with Some b => (b <? k)%nat | None => false end.
Definition applyChunk (H : hypergraph) (s : phg) (chunk : list nat) : option phg :=
  if forallb (assigned (part s) (pk s)) chunk then
    Some (mkPHG (pk s) (part s)
                (fun p => if (p <? pk s)%nat then wt s p + chunkWeight H (part s) chunk p else wt s p) (pc s) (cs s))
  else None.
Definition initializeBlockWeights (H : hypergraph) (s : phg) (chunks : list (list nat)) : option phg :=
  fold_opt (applyChunk H) s chunks.

(** One hyperedge of initializePinCountInPart, partitioned_hypergraph.h:1198-1222: [pin_counts] is the local
    counter array after the pin loop; the second loop writes the positive entries. *)
Definition localPinCount (H : hypergraph) (P : partition) (e p : nat) : Z :=
  sumZ (fun v => if in_block P p v then 1 else 0) (pins H e).
Definition writePositive (cnt : nat -> Z) (e : nat) (s : phg) (p : nat) : phg :=
  if 0 <? cnt p then setPinCountInPart (addBlock s e p) e p (cnt p) else s.
Definition initEdge (H : hypergraph) (s : phg) (e : nat) : option phg :=
  if forallb (assigned (part s) (pk s)) (pins H e) then
    Some (fold_left (writePositive (localPinCount H (part s) e) e) (seq 0 (pk s)) s)
  else None.
(** [eorder] is the order in which the ranges of the parallel_for process the enabled hyperedges. *)
Definition initializePinCountInPart (H : hypergraph) (s : phg) (eorder : list nat) : option phg :=
  fold_opt (initEdge H) s eorder.

(** initializePartition, partitioned_hypergraph.h:780-785 (the two invoked tasks touch disjoint members). *)
Definition initializePartition (H : hypergraph) (s : phg) (chunks : list (list nat)) (eorder : list nat) : option phg :=
  match initializeBlockWeights H s chunks with
  | None => None
  | Some s1 => initializePinCountInPart H s1 eorder
  end.

(** Queries: partWeight :699, pinCountInPart :740, connectivitySet / connectivity :733 (popcount of the bits),
    isBorderNode :705-720 (HIGH_DEGREE_THRESHOLD = 100000, :88), numIncidentCutHyperedges :722-730. *)
Definition partWeight (s : phg) (p : nat) : Z := wt s p.
Definition pinCountInPart (s : phg) (e p : nat) : Z := pc s e p.
Definition connectivitySet (s : phg) (e : nat) : list nat := filter (cs s e) (seq 0 (pk s)).
Definition conn (s : phg) (e : nat) : Z := countb (pk s) (cs s e).
Definition HIGH_DEGREE_THRESHOLD : Z := 100000.
Definition isBorderNode (H : hypergraph) (s : phg) (u : nat) : bool :=
  if Z.of_nat (length (inc H u)) <=? HIGH_DEGREE_THRESHOLD
  then existsb (fun e => 1 <? conn s e) (inc H u) else false.
Definition numIncidentCutHyperedges (H : hypergraph) (s : phg) (u : nat) : Z :=
  sumZ (fun e => if 1 <? conn s e then 1 else 0) (inc H u).

(** ---- API histories ---- *)
Inductive phg_op :=
| OSetOnly (u p : nat)
| OInit (chunks : list (list nat)) (eorder : list nat)
| OSet (u p : nat)
| OChange (u from to : nat) (maxw : Z)
| OReset.

Definition phg_step (H : hypergraph) (s : phg) (o : phg_op) : option phg :=
  match o with
  | OSetOnly u p => setOnlyNodePart s u p
  | OInit chunks eo => initializePartition H s chunks eo
  | OSet u p => setNodePart H s u p
  | OChange u f t m => match changeNodePart H s u f t m with None => None | Some (s', _, _) => Some s' end
  | OReset => Some (resetPartition s)
  end.
Definition phg_run (H : hypergraph) (s : phg) (l : list phg_op) : option phg := fold_opt (phg_step H) s l.
