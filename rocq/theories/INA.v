(** The incident net array of the dynamic hypergraph (n-level partitioning):
    doubly linked lists of incident net lists, version numbers, in-place
    contraction and uncontraction.

    /repo/mt-kahypar/datastructures/incident_net_array.h and
    /repo/mt-kahypar/datastructures/incident_net_array.cpp. *)
From Coq Require Import List Arith Lia ZArith Bool Permutation.
From Verif Require Import Base.
Import ListNotations.
Local Open Scope nat_scope.

(** incident_net_array.h:108-145 Header and :100-103 Entry.  The byte array
    [_incident_net_array] with the index array is modelled as one header and
    one array of entries (hyperedge, version) per node.  Simplified: version
    numbers and degrees are unbounded integers; -1 stands for the wrapped
    value 2^32-1, which no entry carries. *)
Record ina := mkIna {
  i_prev : nat -> nat;
  i_next : nat -> nat;
  i_itp : nat -> nat;
  i_itn : nat -> nat;
  i_tail : nat -> nat;
  i_size : nat -> nat;
  i_deg : nat -> Z;
  i_ver : nat -> Z;
  i_head : nat -> bool;
  i_ent : nat -> list (nat * Z) }.

Definition set_prev s a b := mkIna (upd (i_prev s) a b) (i_next s) (i_itp s) (i_itn s) (i_tail s) (i_size s) (i_deg s) (i_ver s) (i_head s) (i_ent s).
Definition set_next s a b := mkIna (i_prev s) (upd (i_next s) a b) (i_itp s) (i_itn s) (i_tail s) (i_size s) (i_deg s) (i_ver s) (i_head s) (i_ent s).
Definition set_itp s a b := mkIna (i_prev s) (i_next s) (upd (i_itp s) a b) (i_itn s) (i_tail s) (i_size s) (i_deg s) (i_ver s) (i_head s) (i_ent s).
Definition set_itn s a b := mkIna (i_prev s) (i_next s) (i_itp s) (upd (i_itn s) a b) (i_tail s) (i_size s) (i_deg s) (i_ver s) (i_head s) (i_ent s).
Definition set_tail s a b := mkIna (i_prev s) (i_next s) (i_itp s) (i_itn s) (upd (i_tail s) a b) (i_size s) (i_deg s) (i_ver s) (i_head s) (i_ent s).
Definition set_size s a b := mkIna (i_prev s) (i_next s) (i_itp s) (i_itn s) (i_tail s) (upd (i_size s) a b) (i_deg s) (i_ver s) (i_head s) (i_ent s).
Definition set_deg s a b := mkIna (i_prev s) (i_next s) (i_itp s) (i_itn s) (i_tail s) (i_size s) (upd (i_deg s) a b) (i_ver s) (i_head s) (i_ent s).
Definition set_ver s a b := mkIna (i_prev s) (i_next s) (i_itp s) (i_itn s) (i_tail s) (i_size s) (i_deg s) (upd (i_ver s) a b) (i_head s) (i_ent s).
Definition set_head s a b := mkIna (i_prev s) (i_next s) (i_itp s) (i_itn s) (i_tail s) (i_size s) (i_deg s) (i_ver s) (upd (i_head s) a b) (i_ent s).
Definition set_ent s a b := mkIna (i_prev s) (i_next s) (i_itp s) (i_itn s) (i_tail s) (i_size s) (i_deg s) (i_ver s) (i_head s) (upd (i_ent s) a b).

(** incident_net_array.cpp:365-424 construct: header setup (:409-423); the
    incident nets of [u] are [nets u] in any order. *)
Definition ina_init (nets : nat -> list nat) : ina :=
  mkIna (fun u => u) (fun u => u) (fun u => u) (fun u => u) (fun u => u)
        (fun u => length (nets u)) (fun u => Z.of_nat (length (nets u)))
        (fun _ => 0%Z) (fun _ => true)
        (fun u => map (fun e => (e, 0%Z)) (nets u)).

(** incident_net_array.h:280-284 swap, on the entry array of one node *)
Fixpoint set_nth {A} (l : list A) (i : nat) (x : A) : list A :=
  match l with
  | [] => []
  | y :: l' => match i with 0 => x :: l' | S i' => y :: set_nth l' i' x end
  end.
Definition swap_nth (l : list (nat * Z)) (i j : nat) : list (nat * Z) :=
  set_nth (set_nth l i (nth j l (0, 0%Z))) j (nth i l (0, 0%Z)).

(** incident_net_array.cpp:176-188: the loop over the active entries of one
    list; [n] entries between [current_entry] and [last_entry] are left.
    Returns the array and the number of removed entries. *)
Fixpoint rem_loop (S' : nat -> bool) (nv : Z) (n cur : nat)
    (l : list (nat * Z)) (rm : nat) : list (nat * Z) * nat :=
  match n with
  | 0 => (l, rm)
  | S n' =>
      let en := nth cur l (0, 0%Z) in
      if S' (fst en) then rem_loop S' nv n' cur (swap_nth l cur (cur + n')) (S rm)
      else rem_loop S' nv n' (S cur) (set_nth l cur (fst en, nv)) rm
  end.

(** incident_net_array.cpp:354-363 *)
Definition removeEmptyIncidentNetList (s : ina) (u : nat) : ina :=
  let s1 := set_itn s (i_itp s u) (i_itn s u) in
  let s2 := set_itp s1 (i_itn s1 u) (i_itp s1 u) in
  let s3 := set_itn s2 u u in
  set_itp s3 u u.

(** incident_net_array.cpp:165-199; [fuel] bounds the do-while loop over the
    ring, the theorems use any fuel of at least the number of nodes *)
Fixpoint rm_chain (fuel : nat) (s : ina) (u cur : nat) (S' : nat -> bool) : ina :=
  let nv := (i_ver s cur + 1)%Z in
  let '(l, k) := rem_loop S' nv (i_size s cur) 0 (i_ent s cur) 0 in
  let s1 := set_deg (set_size (set_ent (set_ver s cur nv) cur l)
                       cur (i_size s cur - k)) u (i_deg s u - Z.of_nat k)%Z in
  let s2 := if (i_size s1 cur =? 0) && negb (cur =? u)
            then removeEmptyIncidentNetList s1 cur else s1 in
  let nx := i_next s2 cur in
  match fuel with
  | 0 => s2
  | S f => if nx =? u then s2 else rm_chain f s2 u nx S'
  end.
Definition removeIncidentNets (fuel : nat) (s : ina) (u : nat) (S' : nat -> bool) : ina :=
  rm_chain fuel s u u S'.

(** incident_net_array.cpp:299-319 *)
Definition append_lists (s : ina) (u v : nat) : ina :=
  let tail_u := i_prev s u in
  let tail_v := i_prev s v in
  let s := set_next s tail_u v in
  let s := set_prev s u tail_v in
  let s := set_tail s v tail_v in
  let s := set_prev s v tail_u in
  let s := set_next s tail_v u in
  let it_tail_u := i_itp s u in
  let it_tail_v := i_itp s v in
  let s := set_itn s it_tail_u v in
  let s := set_itp s u it_tail_v in
  let s := set_itp s v it_tail_u in
  let s := set_itn s it_tail_v u in
  let s := set_head s v false in
  if i_size s v =? 0 then removeEmptyIncidentNetList s v else s.

(** incident_net_array.cpp:112-126, the part executed under the lock of u
    (:119-124); :116-117 is [removeIncidentNets] of v *)
Definition append_step (s : ina) (u v : nat) : ina :=
  let s1 := append_lists s u v in
  set_deg s1 u (i_deg s1 u + i_deg s1 v)%Z.
Definition ina_contract (fuel : nat) (s : ina) (u v : nat) (shared : nat -> bool) : ina :=
  append_step (removeIncidentNets fuel s v shared) u v.

(** incident_net_array.cpp:321-352: the two while loops and the pointer
    updates of splice *)
Fixpoint back (fuel : nat) (s : ina) (u v x : nat) : nat :=
  match fuel with
  | 0 => x
  | S f => if ((x =? v) || (i_size s x =? 0)) && negb (x =? u)
           then back f s u v (i_prev s x) else x
  end.
Fixpoint fwd (fuel : nat) (s : ina) (u tl x : nat) : nat :=
  match fuel with
  | 0 => x
  | S f => if ((x =? tl) || (i_size s x =? 0)) && negb (x =? u)
           then fwd f s u tl (i_next s x) else x
  end.
Definition splice (fuel : nat) (s : ina) (u v : nat) : ina :=
  let tl := i_tail s v in
  let pv := back fuel s u v v in
  let nt := fwd fuel s u tl tl in
  let s := set_itn s pv nt in
  let s := set_itp s nt pv in
  let prev_v := i_prev s v in
  let next_tail := i_next s tl in
  let s := set_prev s v tl in
  let s := set_next s tl v in
  let s := set_prev s next_tail prev_v in
  let s := set_next s prev_v next_tail in
  set_head s v true.

(** incident_net_array.cpp:143-162 uncontract: the part under the lock of u *)
Definition splice_step (fuel : nat) (s : ina) (u v : nat) : ina :=
  let s1 := splice fuel s u v in
  set_deg s1 u (i_deg s1 u - i_deg s1 v)%Z.

(** incident_net_array.cpp:231-240: number of leading entries with version nv *)
Fixpoint lead (nv : Z) (l : list (nat * Z)) : nat :=
  match l with
  | [] => 0
  | en :: l' => if Z.eqb (snd en) nv then S (lead nv l') else 0
  end.

(** the calls of case_two_func and case_one_func, in order *)
Inductive event := Two (e : nat) | One (e : nat).

(** incident_net_array.cpp:210-262 *)
Fixpoint rs_chain (fuel : nat) (s : ina) (u cur : nat) (last : option nat)
    (evs : list event) : ina * list event :=
  let nv := (i_ver s cur - 1)%Z in
  let act := firstn (i_size s cur) (i_ent s cur) in
  let rest := skipn (i_size s cur) (i_ent s cur) in
  let k := lead nv rest in
  let s1 := set_deg (set_size (set_ver s cur nv) cur (i_size s cur + k))
              u (i_deg s u + Z.of_nat k)%Z in
  let evs1 := evs ++ map (fun en => Two (fst en)) act
                  ++ map (fun en => One (fst en)) (firstn k rest) in
  let (s2, last2) :=
    if (0 <? i_size s1 cur) || (cur =? u) then
      (match last with
       | Some x => if i_itp s1 cur =? x then s1
                   else set_itp (set_itn s1 x cur) cur x
       | None => s1
       end, Some cur)
    else (s1, last) in
  let nx := i_next s2 cur in
  let fin := match last2 with
             | Some x => set_itn (set_itp s2 u x) x u
             | None => s2
             end in
  match fuel with
  | 0 => (fin, evs1)
  | S f => if nx =? u then (fin, evs1) else rs_chain f s2 u nx last2 evs1
  end.
Definition restoreIncidentNets (fuel : nat) (s : ina) (u : nat) : ina * list event :=
  rs_chain fuel s u u None [].
Definition ina_uncontract (fuel : nat) (s : ina) (u v : nat) : ina * list event :=
  restoreIncidentNets fuel (splice_step fuel s u v) v.

(** incident_net_array.cpp:32-110: the entries visited by
    [for (e : incidentEdges(u))] *)
Fixpoint it_walk (fuel : nat) (s : ina) (cur : nat) : list nat :=
  map fst (firstn (i_size s cur) (i_ent s cur)) ++
  match fuel with
  | 0 => []
  | S f => let nx := i_itn s cur in
           if i_head s nx || (nx =? cur) then [] else it_walk f s nx
  end.
Definition incidentEdges (fuel : nat) (s : ina) (u : nat) : list nat := it_walk fuel s u.

(** incident_net_array.cpp:291-297 *)
Definition ina_reset (s : ina) : ina :=
  mkIna (i_prev s) (i_next s) (i_itp s) (i_itn s) (i_tail s) (i_size s) (i_deg s)
        (fun _ => 0%Z) (i_head s)
        (fun u => map (fun en => (fst en, 0%Z)) (firstn (i_size s u) (i_ent s u))
                  ++ skipn (i_size s u) (i_ent s u)).
