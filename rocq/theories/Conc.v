(** Conc.v - concurrent execution of changeNodePart (partitioned_hypergraph.h:590-621, 656-677, 1235-1277) by any number of
    threads, with attributed gains and gain-cache updates.

    Interleaving semantics: every atomic RMW (add_fetch / fetch_sub of a block weight), the store of the block
    id, every lock acquisition / release of the per-hyperedge spin lock, every pin-count update performed while
    holding the lock, and every single read of partID / fetch_add of the gain cache in deltaGainUpdate is one
    step; any thread may take the next step.  Simplifications: sequentially consistent memory; the pin-count
    update and the toggle of the connectivity bit performed together under the lock are one step; thread-local
    computation is merged into the neighbouring shared access.
    Usage contract (as in FM, label propagation, rebalancing): a node is being moved by at most one thread at a
    time and [from] is the block the calling thread read for it. *)
From Verif Require Import Base Spec PHG GainCache.

Record mv := mkMv { m_u : nat; m_from : nat; m_to : nat; m_max : Z }.

(** Gain-cache micro operations of deltaGainUpdate: an unconditional fetch_add on a benefit/penalty entry, or
    "if partID(v) == b then fetch_add on the penalty entry of v". *)
Inductive mop := MBen (v b : nat) (x : Z) | MPen (v : nat) (x : Z) | MCondPen (v b : nat) (x : Z).

(** The micro operations issued by the three gain caches (same code as km1_delta etc. in GainCache.v). *)
Definition km1_mops (H : hypergraph) (su : sync_update) : list mop :=
  let ps := pins H (su_he su) in
  let w := su_weight su in
  (if su_from_after su =? 1 then map (fun v => MCondPen v (su_from su) (- w)) ps
   else if su_from_after su =? 0 then map (fun v => MBen v (su_from su) (- w)) ps else []) ++
  (if su_to_after su =? 1 then map (fun v => MBen v (su_to su) w) ps
   else if su_to_after su =? 2 then map (fun v => MCondPen v (su_to su) w) ps else []).
Definition cut_part_mops (H : hypergraph) (su : sync_update) : list mop :=
  let ps := pins H (su_he su) in
  let w := su_weight su in
  (if su_from_after su =? su_size su - 1 then flat_map (fun v => [MPen v (- w); MBen v (su_from su) w]) ps
   else if su_from_after su =? su_size su - 2 then map (fun v => MBen v (su_from su) (- w)) ps else []) ++
  (if su_to_after su =? su_size su then flat_map (fun v => [MPen v w; MBen v (su_to su) (- w)]) ps
   else if su_to_after su =? su_size su - 1 then map (fun v => MBen v (su_to su) w) ps else []).
Definition cut_mops H su := if 1 <? su_size su then cut_part_mops H su else [].
Definition soed_mops H su := if 1 <? su_size su then km1_mops H su ++ cut_part_mops H su else [].

(** Program counter of a thread inside changeNodePart. *)
Inductive tst :=
| Idle
| Added (m : mv) (after : Z)                       (* after line 602 *)
| Stored (m : mv)                                  (* after line 604 *)
| Edges (m : mv) (rem : list nat)                  (* in the loop, lines 613-615 *)
| Locked (m : mv) (e : nat) (rem : list nat)       (* after lock(), line 1245 *)
| Dec (m : mv) (e : nat) (rem : list nat) (fa : Z) (* after decrementPinCountOfBlock, line 1247 *)
| Incd (m : mv) (rem : list nat) (su : sync_update)(* after incrementPinCountOfBlock, line 1248, lock still held *)
| Delta (m : mv) (rem : list nat) (ops : list mop). (* after unlock(): inside delta_func, line 1252 *)

Record cst := mkC {
  sh  : phg;                 (* shared partition data structure *)
  lk  : nat -> bool;         (* _pin_count_update_ownership *)
  th  : nat -> tst;          (* threads 0..n-1 *)
  gc  : cache;               (* shared gain cache *)
  log : list sync_update;    (* arguments of all delta_func calls so far *)
  rep : list (mv * bool)     (* results returned so far *)
}.

Inductive label := Begin (i : nat) (m : mv) | Adv (i : nat).

Definition node_of (t : tst) : option nat :=
  match t with
  | Idle => None
  | Added m _ | Stored m | Edges m _ | Locked m _ _ | Dec m _ _ _ | Incd m _ _ | Delta m _ _ => Some (m_u m)
  end.

Definition set_th (st : cst) (i : nat) (t : tst) : cst := mkC (sh st) (lk st) (upd (th st) i t) (gc st) (log st) (rep st).
Definition set_sh (st : cst) (s : phg) : cst := mkC s (lk st) (th st) (gc st) (log st) (rep st).
Definition set_lk (st : cst) (e : nat) (b : bool) : cst := mkC (sh st) (upd (lk st) e b) (th st) (gc st) (log st) (rep st).
Definition add_wt (s : phg) (b : nat) (x : Z) : phg := mkPHG (pk s) (part s) (upd (wt s) b (wt s b + x)) (pc s) (cs s).
Definition set_part (s : phg) (u b : nat) : phg := mkPHG (pk s) (upd (part s) u (Some b)) (wt s) (pc s) (cs s).

Section Sem.
Variables (H : hypergraph) (n : nat) (mops : hypergraph -> sync_update -> list mop).

Definition is_free (st : cst) (u : nat) : bool :=
  forallb (fun j => match node_of (th st j) with Some v => negb (Nat.eqb v u) | None => true end) (seq 0 n).

Definition exec_mop (P : partition) (c : cache) (o : mop) (rest : list mop) : cache * list mop :=
  match o with
  | MBen v b x => (add_ben c v b x, rest)
  | MPen v x => (add_pen c v x, rest)
  | MCondPen v b x => (c, if in_block P b v then MPen v x :: rest else rest)   (* the read of partID(v) *)
  end.

(** One step of thread [i].  [None] = not enabled (lock taken) or undefined behaviour. *)
Definition adv (st : cst) (i : nat) : option cst :=
  let s := sh st in
  match th st i with
  | Idle => None
  | Added m after =>
    if after <=? m_max m
    then Some (set_th (set_sh st (set_part s (m_u m) (m_to m))) i (Stored m))
    else let st' := set_th (set_sh st (add_wt s (m_to m) (- nw H (m_u m)))) i Idle in
         Some (mkC (sh st') (lk st') (th st') (gc st') (log st') ((m, false) :: rep st'))
  | Stored m => Some (set_th (set_sh st (add_wt s (m_from m) (- nw H (m_u m)))) i (Edges m (inc H (m_u m))))
  | Edges m [] => let st' := set_th st i Idle in
                  Some (mkC (sh st') (lk st') (th st') (gc st') (log st') ((m, true) :: rep st'))
  | Edges m (e :: rem) => if lk st e then None else Some (set_th (set_lk st e true) i (Locked m e rem))
  | Locked m e rem =>
    match decrementPinCountOfBlock s e (m_from m) with
    | None => None
    | Some (s', fa) => Some (set_th (set_sh st s') i (Dec m e rem fa))
    end
  | Dec m e rem fa =>
    match incrementPinCountOfBlock s e (m_to m) with
    | None => None
    | Some (s', ta) =>
      Some (set_th (set_sh st s') i
             (Incd m rem (mkSync e (m_from m) (m_to m) (ew H e) (Z.of_nat (length (pins H e))) fa ta)))
    end
  | Incd m rem su =>
    let st' := set_th (set_lk st (su_he su) false) i (Delta m rem (mops H su)) in
    Some (mkC (sh st') (lk st') (th st') (gc st') (su :: log st') (rep st'))
  | Delta m rem [] => Some (set_th st i (Edges m rem))
  | Delta m rem (o :: ops) =>
    let '(c', ops') := exec_mop (part s) (gc st) o ops in
    let st' := set_th st i (Delta m rem ops') in
    Some (mkC (sh st') (lk st') (th st') c' (log st') (rep st'))
  end.

Definition cstep (st : cst) (l : label) : option cst :=
  match l with
  | Begin i m =>
    match th st i with
    | Idle =>
      if (i <? n)%nat && is_free st (m_u m) && in_block (part (sh st)) (m_from m) (m_u m) && negb (Nat.eqb (m_from m) (m_to m))
         && (m_to m <? pk (sh st))%nat && mem (m_u m) (nodes H)
      then let s' := add_wt (sh st) (m_to m) (nw H (m_u m)) in
           Some (set_th (set_sh st s') i (Added m (wt s' (m_to m))))
      else None
    | _ => None
    end
  | Adv i => if (i <? n)%nat then adv st i else None
  end.

Definition crun (st : cst) (l : list label) : option cst := fold_opt cstep st l.
Definition quiescent (st : cst) : Prop := forall i, (i < n)%nat -> th st i = Idle.
Definition cinit (s : phg) (c : cache) : cst := mkC s (fun _ => false) (fun _ => Idle) c [] [].
End Sem.
