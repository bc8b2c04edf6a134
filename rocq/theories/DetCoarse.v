(** DetCoarse.v - the deterministic coarsener: one clustering pass of
    mt-kahypar/partition/coarsening/deterministic_multilevel_coarsener.cpp:78-213 (coarseningPassImpl, clusterNodesInRange),
    216-299 (calculatePreferredTargetCluster), 301-348 (approveNodes) and 350-363 (handleNodeSwaps).
    Every tbb::parallel_for is the set of all interleavings of its iterations (ParLoop.v); a step of an iteration performs at most
    one access to an array element that another iteration of the same loop writes.  The two buffered vectors have no order: pushing
    increments a multiplicity and finalize() returns an arbitrary list with these multiplicities.  The thread-local counters
    num_contracted_nodes are represented by their sum.  Node weights are unbounded integers. *)
From Verif Require Import Base Spec ParLoop.

(** Shared arrays of the coarsener (deterministic_multilevel_coarsener.h:154-166) and the vector clusters (cpp:88). *)
Record dcore := mkDC {
  clu  : nat -> nat;    (* clusters *)
  cwt  : nat -> Z;      (* cluster_weight *)
  opp  : nat -> Z;      (* opportunistic_cluster_weight *)
  prop : nat -> nat;    (* propositions *)
  hvy  : nat -> nat;    (* nodes_in_too_heavy_clusters *)
  fixl : nat -> nat;    (* cluster_weights_to_fix *)
  cnt  : Z;             (* num_contracted_nodes *)
  num  : Z;             (* num_nodes *)
  oob  : bool           (* the loop of approveNodes ran past the end of its vector *)
}.
(** What the fixed vertex support stores besides the (constant) block of each fixed vertex, datastructures/fixed_vertex_support.h:
    _fixed_vertex_block_weights and _total_fixed_vertex_weight. *)
Record dfix := mkDF { fbw : nat -> Z; ftot : Z }.
Definition dst : Type := dcore * dfix.
Definition set_clu c f := mkDC f (cwt c) (opp c) (prop c) (hvy c) (fixl c) (cnt c) (num c) (oob c).
Definition set_cwt c f := mkDC (clu c) f (opp c) (prop c) (hvy c) (fixl c) (cnt c) (num c) (oob c).
Definition set_opp c f := mkDC (clu c) (cwt c) f (prop c) (hvy c) (fixl c) (cnt c) (num c) (oob c).
Definition set_prop c f := mkDC (clu c) (cwt c) (opp c) f (hvy c) (fixl c) (cnt c) (num c) (oob c).
Definition set_hvy c f := mkDC (clu c) (cwt c) (opp c) (prop c) f (fixl c) (cnt c) (num c) (oob c).
Definition set_fixl c f := mkDC (clu c) (cwt c) (opp c) (prop c) (hvy c) f (cnt c) (num c) (oob c).
Definition set_cnt c z := mkDC (clu c) (cwt c) (opp c) (prop c) (hvy c) (fixl c) z (num c) (oob c).
Definition set_oob c := mkDC (clu c) (cwt c) (opp c) (prop c) (hvy c) (fixl c) (cnt c) (num c) true.
Definition push (f : nat -> nat) (u : nat) : nat -> nat := upd f u (S (f u)).
(** A list is a possible content of a buffered vector. *)
Definition content (f : nat -> nat) (l : list nat) : Prop := forall x, count_occ Nat.eq_dec l x = f x.

(** Everything a pass reads and never writes. *)
Record dparams := mkDP {
  D : Type;                       (* double *)
  dadd : D -> D -> D;
  dlt : D -> D -> bool;
  dzero : D;
  escore : nat -> D;              (* edgeWeight / edgeSize, cpp:243 *)
  thresh : nat;                   (* ignore_hyperedge_size_threshold *)
  bloom : nat -> nat;             (* target & bloom_filter_mask *)
  tiepos : nat -> nat -> nat;     (* position drawn by the hash rng of node u among n candidates, cpp:285-288 *)
  enabled : nat -> bool;          (* hg.nodeIsEnabled *)
  com : nat -> nat;               (* hg.communityID *)
  maxw : Z;                       (* context.coarsening.max_allowed_node_weight *)
  swaps : bool;                   (* context.coarsening.det_resolve_swaps *)
  hasf : bool;                    (* hg.hasFixedVertices() *)
  fblk : nat -> option nat;       (* fixedVertexBlock *)
  maxfix : Z -> Z;                (* rating_fixed_vertex_acceptance_policy.h:84-86 as a function of totalFixedVertexWeight *)
  maxpart : nat -> Z              (* context.partition.max_part_weights *)
}.

Section DetCoarse.
Variables (H : hypergraph) (p : dparams).
Local Notation w := (nw H).

(** tmp_ratings[target] += score; the map keeps its keys in the order of insertion (datastructures/sparse_map.h:356-420). *)
Fixpoint radd (m : list (nat * D p)) (t : nat) (x : D p) : list (nat * D p) :=
  match m with
  | [] => [(t, dadd p (dzero p) x)]
  | (t', y) :: m' => if Nat.eqb t' t then (t', dadd p y x) :: m' else (t', y) :: radd m' t x
  end.
(** cpp:244-252: the pins of one hyperedge, each cluster (up to collisions of the bloom filter) once. *)
Definition rate_edge (cl : nat -> nat) (m : list (nat * D p)) (e : nat) : list (nat * D p) :=
  fst (fold_left (fun mb v => let t := cl v in
         if mem (bloom p t) (snd mb) then mb else (radd (fst mb) t (escore p e), bloom p t :: snd mb)) (pins H e) (m, [])).
(** cpp:239-255.  The branch for plain graphs (cpp:230-236) is the case of hyperedges with two pins without the size limit. *)
Definition rating (cl : nat -> nat) (u : nat) : list (nat * D p) :=
  fold_left (fun m e => if Nat.ltb (length (pins H e)) (thresh p) then rate_edge cl m e else m) (inc H u) [].

Definition isf (u : nat) : bool := match fblk p u with Some _ => true | None => false end.
(** FixedVertexAcceptancePolicy::acceptContraction / acceptImbalance, policies/rating_fixed_vertex_acceptance_policy.h:43-99: may v be
    contracted onto u? *)
Definition accept (fx : dfix) (u v : nat) : bool :=
  match fblk p u, fblk p v with
  | None, None => true
  | None, Some _ => false
  | Some a, Some b => Nat.eqb a b
  | Some a, None => fbw fx a + w v <=? Z.min (maxfix p (ftot fx)) (maxpart p a)
  end.
(** cpp:258-292: highest rated feasible cluster, ties broken by a hash of u. *)
Definition feasible (cw : nat -> Z) (fx : dfix) (u t : nat) : bool :=
  negb (Nat.eqb t u) && Nat.eqb (com p t) (com p u) && (cw t + w u <=? maxw p) && (negb (hasf p) || accept fx t u).
Definition best_targets (cw : nat -> Z) (fx : dfix) (u : nat) (m : list (nat * D p)) : list nat :=
  snd (fold_left (fun (bs : D p * list nat) en =>
         if negb (dlt p (snd en) (fst bs)) && feasible cw fx u (fst en)
         then if dlt p (fst bs) (snd en) then (snd en, [fst en]) else (fst bs, snd bs ++ [fst en])
         else bs) m (dzero p, [])).
Definition pref (cl : nat -> nat) (cw : nat -> Z) (fx : dfix) (u : nat) : nat :=
  match best_targets cw fx u (rating cl u) with
  | [] => u
  | t :: l => nth (Nat.modulo (tiepos p u (length (t :: l))) (length (t :: l))) (t :: l) u
  end.

(** Loop 1 (cpp:131-141, 294-297): every node of the range proposes a cluster. *)
Inductive l1 := P0 (u : nat) | P1 (u t : nat) | PD (u : nat).
Definition step1 (l : l1) (s : dst) : option (l1 * dst) :=
  let (c, fx) := s in
  match l with
  | P0 u => if (cwt c u =? w u) && enabled p u then
              let t := pref (clu c) (cwt c) fx u in
              if Nat.eqb t u then Some (PD u, s) else Some (P1 u t, (set_prop c (upd (prop c) u t), fx))
            else Some (PD u, s)
  | P1 u t => Some (PD u, (set_opp c (upd (opp c) t (opp c t + w u)), fx))       (* __atomic_fetch_add, cpp:296 *)
  | PD _ => None
  end.

(** Loop 2 (handleNodeSwaps, cpp:350-363). *)
Inductive l2 := Q0 (u : nat) | Q1 (u v : nat) | Q2 (u v : nat) | Q3 (u v tgt src : nat) | Q4 (u v tgt src : nat) | QD (u : nat).
Definition step2 (l : l2) (s : dst) : option (l2 * dst) :=
  let (c, fx) := s in
  match l with
  | Q0 u => let v := prop c u in if Nat.ltb u v then Some (Q1 u v, s) else Some (QD u, s)
  | Q1 u v => if Nat.eqb u (prop c v) then Some (Q2 u v, s) else Some (QD u, s)
  | Q2 u v => let tgt := if opp c v <? opp c u then u else v in
              let src := if Nat.eqb tgt u then v else u in
              Some (Q3 u v tgt src, (set_prop c (upd (prop c) u tgt), fx))
  | Q3 u v tgt src => Some (Q4 u v tgt src, (set_prop c (upd (prop c) v tgt), fx))
  | Q4 u v tgt src => Some (QD u, (set_opp c (upd (opp c) src (opp c src - w tgt)), fx))
  | QD _ => None
  end.

(** FixedVertexSupport::contractWithoutChains(u, v), datastructures/fixed_vertex_support.cpp:40-119 with ignore_v: the returned success is
    ignored by the coarsener (cpp:163-164, 324-325), and the blocks of the fixed vertices do not change because acceptContraction never
    contracts a fixed vertex onto a free one. *)
Definition fcontract (fx : dfix) (u v : nat) : dfix :=
  if hasf p then
    match fblk p u, fblk p v with
    | Some a, None => if fbw fx a + w v <=? maxpart p a then mkDF (upd (fbw fx) a (fbw fx a + w v)) (ftot fx + w v) else fx
    | _, _ => fx
    end
  else fx.

(** Loop 3 (cpp:150-177): grant the requests for clusters which do not become too heavy. *)
Inductive l3 := A0 (u : nat) | A1 (u t : nat) | A2 (u t : nat) | A3 (u t : nat) | AD (u : nat).
Definition step3 (l : l3) (s : dst) : option (l3 * dst) :=
  let (c, fx) := s in
  match l with
  | A0 u => let t := prop c u in
            if Nat.eqb t u then Some (AD u, s)
            else if opp c t <=? maxw p then
              if opp c u =? w u then Some (A1 u t, (set_cnt c (cnt c + 1), fx))
              else Some (A1 u t, (set_fixl c (push (fixl c) u), fx))
            else
              let c1 := if opp c u =? w u then c else set_fixl c (push (fixl c) u) in
              Some (AD u, (set_hvy c1 (push (hvy c1) u), fx))
  | A1 u t => Some (A2 u t, (c, fcontract fx t u))
  | A2 u t => Some (A3 u t, (set_clu c (upd (clu c) u t), fx))
  | A3 u t => Some (AD u, (set_cwt c (upd (cwt c) t (opp c t)), fx))
  | AD _ => None
  end.

(** Loop 4 (approveNodes, cpp:306-344) on the sorted vector [hl]: the first node of each group approves a prefix of the group. *)
Inductive l4 := B0 (pos : nat) | B1 (t : nat) (tw : Z) (i : nat) (c : Z) | B2 (t : nat) (tw : Z) (c : Z) | B3 (t : nat) (tw : Z) (c : Z) | BD.
Definition step4 (hl : list nat) (l : l4) (s : dst) : option (l4 * dst) :=
  let (c, fx) := s in
  match l with
  | B0 pos => match nth_error hl pos with
              | None => Some (BD, s)
              | Some x =>
                let t := prop c x in
                let first := match pos with O => true | S q => negb (Nat.eqb (prop c (nth q hl 0%nat)) t) end in
                if first then Some (B1 t (cwt c t) pos 0, s) else Some (BD, s)
              end
  | B1 t tw i n => match nth_error hl i with
                   | None => Some (BD, (set_oob c, fx))
                   | Some v => if maxw p <? tw + w v then Some (B2 t tw n, s)
                               else Some (B1 t (tw + w v) (S i) (if opp c v =? w v then n + 1 else n),
                                          (set_clu c (upd (clu c) v t), fcontract fx t v))
                   end
  | B2 t tw n => Some (B3 t tw n, (set_cwt c (upd (cwt c) t tw), fx))
  | B3 t tw n => Some (BD, (set_cnt (set_opp c (upd (opp c) t tw)) (cnt c + n), fx))
  | BD => None
  end.

(** Loop 5 (cpp:188-195): nodes which left a cluster others have joined. *)
Inductive l5 := F0 (h : nat) | F1 (h : nat) | F2 (h : nat) | FD (h : nat).
Definition step5 (l : l5) (s : dst) : option (l5 * dst) :=
  let (c, fx) := s in
  match l with
  | F0 h => if Nat.eqb (clu c h) h then Some (FD h, s) else Some (F1 h, s)
  | F1 h => Some (F2 h, (set_cwt c (upd (cwt c) h (cwt c h - w h)), fx))
  | F2 h => Some (FD h, (set_opp c (upd (opp c) h (opp c h - w h)), fx))
  | FD _ => None
  end.

(** The comparator of approveNodes, cpp:307-310. *)
Definition hlt (pr : nat -> nat) (a b : nat) : Prop :=
  (pr a < pr b)%nat \/ (pr a = pr b /\ (w a < w b \/ (w a = w b /\ (a < b)%nat))).

(** clusterNodesInRange, cpp:121-198: num_nodes is reduced by the counters, the vectors are cleared. *)
Definition sub_end (c : dcore) : dcore :=
  mkDC (clu c) (cwt c) (opp c) (prop c) (fun _ => 0%nat) (fun _ => 0%nat) 0 (num c - cnt c) (oob c).
Definition sub_round (rng : list nat) (s s' : dst) : Prop :=
  exists s1 s2 s3 s4 s5 hl fl,
    par step1 (map P0 rng) s s1 /\
    (if swaps p then par step2 (map Q0 rng) s1 s2 else s2 = s1) /\
    par step3 (map A0 rng) s2 s3 /\
    content (hvy (fst s3)) hl /\ StronglySorted (hlt (prop (fst s3))) hl /\
    par (step4 hl) (map B0 (seq 0 (length hl))) s3 s4 /\
    content (fixl (fst s4)) fl /\
    par step5 (map F0 fl) s4 s5 /\
    s' = (sub_end (fst s5), snd s5).

(** coarseningPassImpl, cpp:88-113: initialization and the loop over the sub-rounds; [rngs] are the index ranges of the random grouping,
    [limit] is currentLevelContractionLimit(). *)
Definition det_init (fx : dfix) : dst :=
  (mkDC (fun u => u) w w (fun u => u) (fun _ => 0%nat) (fun _ => 0%nat) 0 (Z.of_nat (length (nodes H))) false, fx).
Inductive pass (limit : Z) : list (list nat) -> dst -> dst -> Prop :=
| pass_nil : forall s, pass limit [] s s
| pass_stop : forall r rs s, num (fst s) <= limit -> pass limit (r :: rs) s s
| pass_go : forall r rs s s' s'', limit < num (fst s) -> sub_round r s s' -> pass limit rs s' s'' -> pass limit (r :: rs) s s''.
End DetCoarse.
