(** Gain cache updates during batch uncontraction (n-level).

    /repo/mt-kahypar/partition/refinement/gains/{km1,cut,soed}/..._gain_cache.cpp,
    uncontractUpdateAfterRestore and uncontractUpdateAfterReplacement (as called
    for an initialised gain cache).  A callback only reads block ids, pins, pin
    counts and the weight of its hyperedge (whose lock is held) and adds to
    entries of the cache with atomic instructions; it is modelled as the list of
    these additions. *)
From Coq Require Import List Arith ZArith Lia Bool.
From Verif Require Import Base DynEdge GainCache.
Import ListNotations.
Local Open Scope nat_scope.

(** add_fetch / sub_fetch / fetch_add / fetch_sub on a penalty or benefit entry *)
Inductive add := APen (x : nat) (d : Z) | ABen (x b : nat) (d : Z).
Definition do_add (c : cache) (a : add) : cache :=
  match a with APen x d => add_pen c x d | ABen x b d => add_ben c x b d end.

(** connectivitySet(he) (C02, C14) *)
Definition cset (k : nat) (pc : nat -> nat) : list nat := filter (fun b => 0 <? pc b) (seq 0 k).

Section Callbacks.
Variables (k : nat) (part : nat -> nat) (w : Z) (x : ev).
Let u := ev_u x.
Let v := ev_v x.
Let block := part (ev_u x).
Let pins := ev_pins x.
Let pc := ev_pc x.
Let sz := length (ev_pins x).
Let cs := cset k (ev_pc x).
Let others := filter (fun p => negb (p =? v)) pins.
(** the first pin of the block of u that is not v *)
Let other_pin := find (fun p => negb (p =? v) && (part p =? block)) pins.
(** the first block of the connectivity set that is not the block of u *)
Let other_block := find (fun b => negb (b =? block)) cs.

(** km1_gain_cache.cpp:165-198 *)
Definition km1_restore : list add :=
  (if pc block =? 2 then match other_pin with Some p => [APen p w] | None => [] end else [])
  ++ [APen v w] ++ map (fun b => ABen v b w) cs.
(** km1_gain_cache.cpp:200-229 *)
Definition km1_replace : list add :=
  (if pc block =? 1 then [APen u w; APen v (- w)] else [])
  ++ [APen u (- w); APen v w] ++ flat_map (fun b => [ABen u b (- w); ABen v b w]) cs.

(** cut_gain_cache.cpp:171-224 *)
Definition cut_restore : list add :=
  if length cs =? 2 then
    (if pc block =? 2 then
       match other_block with Some ob => map (fun p => ABen p ob (- w)) others | None => [] end
     else [])
    ++ flat_map (fun b => if pc b =? sz - 1 then [ABen v b w] else []) cs
  else if pc block =? sz then
    APen v w :: (if sz =? 2 then map (fun p => APen p w) others else [])
  else [].
(** cut_gain_cache.cpp:226-252 *)
Definition cut_replace : list add :=
  if 1 <? sz then
    (if pc block =? sz then [APen u (- w); APen v w] else [])
    ++ (if length cs =? 2
        then flat_map (fun b => if pc b =? sz - 1 then [ABen u b (- w); ABen v b w] else []) cs
        else [])
  else [].

(** soed_gain_cache.cpp:206-290 *)
Definition soed_restore : list add :=
  (if pc block =? 2 then
     match other_pin with
     | Some p => APen p w :: (if sz =? 2 then [ABen p block w] else [])
     | None => []
     end
     ++ (if length cs =? 2 then
           match other_block with Some ob => map (fun p => ABen p ob (- w)) others | None => [] end
         else [])
   else [])
  ++ [APen v w]
  ++ flat_map (fun b => ABen v b w :: (if pc b =? sz - 1 then [ABen v b w] else [])) cs
  ++ (if pc block =? sz then
        APen v w :: (if sz =? 2 then
                       match (if pc block =? 2 then other_pin else None) with Some p => [APen p w] | None => [] end
                     else [])
      else []).
(** soed_gain_cache.cpp:292-334 *)
Definition soed_replace : list add :=
  if 1 <? sz then
    (if 1 <? pc block then [APen u (- w); APen v w] else [])
    ++ (if pc block =? sz then [APen u (- w); APen v w] else [])
    ++ flat_map (fun b => [ABen u b (- w); ABen v b w]
                          ++ (if pc b =? sz - 1 then [ABen u b (- w); ABen v b w] else [])) cs
  else [].
End Callbacks.

Record upolicy := mkUp { up_restore : nat -> (nat -> nat) -> Z -> ev -> list add;
                         up_replace : nat -> (nat -> nat) -> Z -> ev -> list add }.
Definition km1_up := mkUp km1_restore km1_replace.
Definition cut_up := mkUp cut_restore cut_replace.
Definition soed_up := mkUp soed_restore soed_replace.
(** the additions of one callback *)
Definition up_adds (U : upolicy) (k : nat) (part : nat -> nat) (w : Z) (x : ev) : list add :=
  if ev_sh x then up_restore U k part w x else up_replace U k part w x.

(** restoreSinglePinHyperedge: km1_gain_cache.cpp:231-238, cut_gain_cache.h
    (nothing), soed_gain_cache.cpp:336-340 (nothing) *)
Definition km1_single (part : nat -> nat) (w : Z) (u : nat) : list add := [ABen u (part u) w].
Definition no_single (part : nat -> nat) (w : Z) (u : nat) : list add := [].
