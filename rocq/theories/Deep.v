(** Model of the deep multilevel scheme: the recursive bipartitioning tree, the
    number of blocks during uncoarsening and the parallel recursion.

    /repo/mt-kahypar/partition/deep_multilevel.cpp:104-261 (RBTree), 485-524
    (apply_bipartitions_to_hypergraph), 538-632 (bipartition_each_block),
    641-956 (deep_multilevel_partitioning), 958-980 (deep_multilevel_recursion). *)
From Coq Require Import List Arith Lia Bool ZArith.
From Verif Require Import Base.
Import ListNotations.
Local Open Scope nat_scope.

(** *** The tree *)
(** 236-246: a block that has to be split further into k > 1 blocks gets two
    children with k/2 rounded up and down. *)
Definition split (k : nat) : list nat := if 1 <? k then [k / 2 + k mod 2; k / 2] else [1].

(** 225-248: [f] bounds the loop (the theorems show that k steps are enough).
    should_continue: some new block has to be split further. *)
Fixpoint passes (f : nat) (l : list nat) : list (list nat) :=
  let l' := flat_map split l in
  l' :: match f with
        | 0 => []
        | S f' => if existsb (fun x => 1 <? x) l' then passes f' l' else []
        end.
(** _desired_blocks; 114-115 is the first level *)
Definition rb_levels (k : nat) : list (list nat) := [k] :: passes k [k].

(** _target_blocks of a level (116-118, 211-214) *)
Fixpoint targets (start : nat) (l : list nat) : list nat :=
  start :: match l with [] => [] | d :: l' => targets (start + d) l' end.

(** _max_part_weights and _perfectly_balanced_weights of a level (119-126,
    215-222), computed from the weights [W] of the final blocks.  Integers are
    unbounded here. *)
Definition wsum (W : list Z) (a d : nat) : Z := fold_right Z.add 0%Z (firstn d (skipn a W)).
Fixpoint level_weights (W : list Z) (start : nat) (l : list nat) : list Z :=
  match l with [] => [] | d :: l' => wsum W start d :: level_weights W (start + d) l' end.

(** 250-252: _partition_to_level; a later level overwrites an earlier one *)
Fixpoint level_of_from (i : nat) (ls : list (list nat)) (k : nat) : option nat :=
  match ls with
  | [] => None
  | l :: ls' => match level_of_from (S i) ls' k with
                | Some j => Some j
                | None => if length l =? k then Some i else None
                end
  end.
Definition level_of (ls : list (list nat)) (k : nat) : option nat := level_of_from 0 ls k.

(** nextK, 130-143; [at] throws if the number of blocks is not in the map *)
Inductive next := Invalid | Next (k : nat) | Throws.
Definition nextK (ls : list (list nat)) (k : nat) : next :=
  let original_k := nth 0 (nth 0 ls []) 0 in
  if k <? original_k then
    match level_of ls k with
    | Some level => if level + 1 <? length ls then Next (length (nth (level + 1) ls [])) else Next original_k
    | None => Throws
    end
  else Invalid.

(** get_maximum_number_of_blocks, 185-194 *)
Fixpoint get_max_from (C n : nat) (rev_ls : list (list nat)) : option nat :=
  match rev_ls with
  | [] => None
  | l :: r => if length l * C <=? n then Some (length l) else get_max_from C n r
  end.
Definition get_max (ls : list (list nat)) (C n : nat) : nat :=
  match get_max_from C n (rev ls) with Some k => k | None => length (last ls []) end.

(** *** Extending the number of blocks *)
(** block_ranges, 573-600 *)
Fixpoint block_ranges (start : nat) (l : list nat) : list nat :=
  start :: match l with [] => [] | d :: l' => block_ranges (start + (if 1 <? d then 2 else 1)) l' end.

(** 491-503: the new block of a node in block [from] of a level with desired
    block numbers [l]; [bip] is the node's side in the bipartition of its block *)
Definition new_block (l : list nat) (from : nat) (bip : nat) : nat :=
  if 1 <? nth from l 0 then nth from (block_ranges 0 l) 0 + (if bip =? 0 then 0 else 1)
  else nth from (block_ranges 0 l) 0.

(** 850-863: the bound of the loops, [None] is the maximum of HypernodeID *)
Definition limit_for_rb (ls : list (list nat)) (C k : nat) : option nat :=
  match nextK ls k with Next k' => Some (k' * C) | _ => None end.

(** 871-897: extending the number of blocks on a level with [m] nodes.  If the
    map has no entry, the program fails (no rule). *)
Inductive extend (ls : list (list nat)) (C m : nat) : nat -> nat -> Prop :=
| ex_stop k : nextK ls k <> Throws -> (forall b, limit_for_rb ls C k = Some b -> m < b) -> extend ls C m k k
| ex_step k k' r : nextK ls k = Next k' -> k' * C <= m -> extend ls C m k' r -> extend ls C m k r.

(** 914-940: on the top level of the main call the number of blocks is extended
    until it is the final one *)
Inductive extend_main (ls : list (list nat)) (C m final_k : nat) : nat -> nat -> Prop :=
| em_stop k : nextK ls k <> Throws -> (forall b, limit_for_rb ls C k = Some b -> m < b) -> k = final_k -> extend_main ls C m final_k k k
| em_step k k' r : nextK ls k = Next k' -> k' * C <= m \/ k <> final_k -> extend_main ls C m final_k k' r -> extend_main ls C m final_k k r.

(** 868-909: all levels below the top one, coarsest first *)
Inductive uncoarsen (ls : list (list nat)) (C : nat) : list nat -> nat -> nat -> Prop :=
| uc_top k : uncoarsen ls C [] k k
| uc_level m ms k k1 r : extend ls C m k k1 -> uncoarsen ls C ms k1 r -> uncoarsen ls C (m :: ms) k r.

(** *** Parallel recursion *)
Definition cdiv (a b : nat) : nat := a / b + (if a mod b =? 0 then 0 else 1).
(** 766-771; [n] is the number of nodes of the coarsest hypergraph *)
Definition threads0 (C n : nat) : nat := max n (2 * C) / (2 * C).
Definition num_calls (C n T : nat) : nat := cdiv T (threads0 C n).
Definition threads_per_call (C n T : nat) : nat := cdiv T (num_calls C n T).
(** 785-786; the subtraction is on unsigned numbers: [None] is a wrap-around *)
Definition threads_of (C n T i : nat) : option nat :=
  let t := threads_per_call C n T in
  if i * t <=? T then Some (min t (T - i * t)) else None.

(** A call of deep_multilevel_partitioning: [main] (context.type), [T] threads,
    [n] nodes, [r] the number of blocks it returns.  [cs] are the numbers of
    nodes of the levels below the top one, coarsest first; the coarsening
    chooses them (any numbers that increase up to [n]).  [final_k] is
    context.partition.k. *)
Fixpoint increasing_to (n : nat) (cs : list nat) : Prop :=
  match cs with [] => True | c :: cs' => c <= hd n cs' /\ increasing_to n cs' end.

Inductive deep (ls : list (list nat)) (C : nat) (par : bool) : bool -> nat -> nat -> nat -> nat -> Prop :=
| dp_call (main : bool) T n final_k cs k0 k1 r :
    increasing_to n cs ->
    start ls C par T (hd n cs) k0 ->
    uncoarsen ls C cs k0 k1 ->
    (if main then extend_main ls C n final_k k1 r else extend ls C n k1 r) ->
    deep ls C par main T n final_k r
(** 735-814: initial partitioning of the coarsest hypergraph *)
with start (ls : list (list nat)) (C : nat) (par : bool) : nat -> nat -> nat -> Prop :=
(** the contraction limit is reached or no more contractions are possible (735-748) *)
| st_bipartition T n : start ls C par T n 2
(** the coarsening was stopped while it should have continued (706-711): recursive
    calls (765-790); the number of blocks is that of the first call (800) *)
| st_recursion T n (rs ts : nat -> nat) : par = true -> 2 * C < n -> n < T * (2 * C) ->
    (forall i, i < num_calls C n T -> threads_of C n T i = Some (ts i)) ->
    (forall i, i < num_calls C n T -> deep ls C par false (ts i) n (get_max ls C n) (rs i)) ->
    start ls C par T n (rs 0).
