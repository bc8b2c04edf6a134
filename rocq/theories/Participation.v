(** Participation.v - which block pairs deterministic flow refinement works on: ParticipationScheduler
    (mt-kahypar/partition/refinement/flows/deterministic/participation_scheduler.h:40-99, participation_scheduler.cpp:32-156).
    Simplifications: sorting (cpp:81-94, 108-111) is insertion sort - the keys are pairwise different (ties are broken by the block
    id), so every sorting algorithm returns this list (proved in ParticipationThms.v); unsigned counters are integers (that they never
    wrap around is proved). *)
From Verif Require Import Base.

(** What the scheduler reads from the edges of the quotient graph (quotient_graph.h:116-128). *)
Record qstats := mkQ { q_w : nat -> nat -> Z;   (* weightOfCutHyperedges *)
                       q_n : nat -> nat -> Z;   (* numImprovementsFound *)
                       q_t : nat -> nat -> Z }. (* totalImprovement *)

Section PS.
Variables (k : nat) (skip_small_cuts skip_unpromising_blocks is_input : bool).

(** cpp:144-156. *)
Definition threshold : Z := if negb is_input && skip_small_cuts then 10 else 0.
Definition isEligible (q : qstats) (active : nat -> bool) (round i j : nat) : bool :=
  (active i || active j) && (threshold <? q_w q i j) && (negb skip_unpromising_blocks || (Nat.eqb round 0 || (0 <? q_n q i j))).

Record pss := mkS {
  active : nat -> bool;                (* _active_blocks *)
  active_next : nat -> bool;           (* _active_blocks_next_round *)
  processed : nat -> nat -> bool;      (* _already_processed *)
  parts : nat -> Z;                    (* _participations *)
  pairs : nat -> list nat;             (* _active_block_pairs *)
  round : nat }.

(** std::sort with a strict order. *)
Fixpoint insert (lt : nat -> nat -> bool) (x : nat) (l : list nat) : list nat :=
  match l with [] => [x] | y :: r => if lt y x then y :: insert lt x r else x :: l end.
Definition isort (lt : nat -> nat -> bool) (l : list nat) : list nat := fold_right (insert lt) [] l.

(** cpp:85-94: std::tie(improvement, cut, id) > ... *)
Definition before (q : qstats) (i l r : nat) : bool :=
  let a := q_t q (Nat.min i l) (Nat.max i l) in let a' := q_t q (Nat.min i r) (Nat.max i r) in
  let b := q_w q (Nat.min i l) (Nat.max i l) in let b' := q_w q (Nat.min i r) (Nat.max i r) in
  (a' <? a) || ((a' =? a) && ((b' <? b) || ((b' =? b) && (r <? l)%nat))).

(** The loops cpp:69-71. *)
Definition all_pairs : list (nat * nat) := flat_map (fun i => map (fun j => (i, j)) (seq (S i) (k - S i))) (seq 0 (k - 1)).
(** cpp:72-77. *)
Definition add_pair (q : qstats) (act : nat -> bool) (rnd : nat) (x : (nat -> Z) * (nat -> list nat)) (p : nat * nat) : (nat -> Z) * (nat -> list nat) :=
  let '(pa, pr) := x in let '(i, j) := p in
  if isEligible q act rnd i j then
    let pa1 := upd pa i (pa i + 1) in let pr1 := upd pr i (pr i ++ [j]) in
    (upd pa1 j (pa1 j + 1), upd pr1 j (pr1 j ++ [i]))
  else x.
(** resetForNewRoundImpl, cpp:55-96. *)
Definition reset_impl (q : qstats) (st : pss) : pss :=
  let act := active_next st in
  let '(pa, pr) := fold_left (add_pair q act (round st)) all_pairs (fun _ => 0, fun _ => []) in
  mkS act (fun _ => false) (fun _ _ => false) pa (fun i => isort (before q i) (pr i)) (round st).
(** cpp:43-48 and 50-53. *)
Definition initialize (q : qstats) (st : pss) : pss := reset_impl q (mkS (active st) (fun _ => true) (processed st) (parts st) (pairs st) 0).
Definition resetForNewRound (q : qstats) (st : pss) : pss :=
  reset_impl q (mkS (active st) (active_next st) (processed st) (parts st) (pairs st) (S (round st))).

(** getNextMatching, cpp:97-142: the blocks in the order of their participations, the greedy matching. *)
Definition more (pa : nat -> Z) (l r : nat) : bool := (pa r <? pa l) || ((pa l =? pa r) && (l <? r)%nat).
Definition sorted_blocks (pa : nat -> Z) : list nat := isort (more pa) (filter (fun i => 0 <? pa i) (seq 0 k)).
Definition free (q : qstats) (st : pss) (sch : nat -> bool) (proc : nat -> nat -> bool) (b0 b1 : nat) : bool :=
  negb (sch b1) && (isEligible q (active st) (round st) (Nat.min b0 b1) (Nat.max b0 b1) && negb (proc (Nat.min b0 b1) (Nat.max b0 b1))).
Fixpoint greedy (q : qstats) (st : pss) (bs : list nat) (sch : nat -> bool) (pa : nat -> Z) (proc : nat -> nat -> bool) (tasks : list (nat * nat))
  : (nat -> Z) * (nat -> nat -> bool) * list (nat * nat) :=
  match bs with
  | [] => (pa, proc, tasks)
  | b0 :: r =>
    if sch b0 then greedy q st r sch pa proc tasks
    else
      let '(sch', pa', proc', tasks') :=
        match find (free q st sch proc b0) (pairs st b0) with
        | None => (sch, pa, proc, tasks)
        | Some b1 =>
          let i := Nat.min b0 b1 in let j := Nat.max b0 b1 in
          let pa1 := upd pa i (pa i - 1) in
          (upd (upd sch b0 true) b1 true, upd pa1 j (pa1 j - 1), upd2 proc i j true, tasks ++ [(i, j)])
        end in
      if Nat.eqb (length tasks') (k / 2) then (pa', proc', tasks') else greedy q st r sch' pa' proc' tasks'
  end.
Definition getNextMatching (q : qstats) (st : pss) : list (nat * nat) * pss :=
  let '(pa, proc, tasks) := greedy q st (sorted_blocks (parts st)) (fun _ => false) (parts st) (processed st) [] in
  (tasks, mkS (active st) (active_next st) proc pa (pairs st) (round st)).

(** reportResults, h:76-81, executed without interference. *)
Definition reportResults (st : pss) (p : nat * nat) (improvement : Z) : pss :=
  if 0 <? improvement then
    mkS (active st) (upd (upd (active_next st) (fst p) true) (snd p) true) (processed st) (parts st) (pairs st) (round st)
  else st.

(** One round (deterministic_flow_refinement_scheduler.cpp:79-84, 129, 157, 162): the calls of getNextMatching, [qs n] are the statistics at the
    time of the n-th call; before each further call the results of the last matching are reported. *)
Fixpoint round_run (n : nat) (qs : nat -> qstats) (imp : nat * nat -> Z) (st : pss) : list (list (nat * nat)) * pss :=
  match n with
  | O => ([], st)
  | S n' => let '(ts, st1) := getNextMatching (qs O) st in
            let st2 := fold_left (fun s p => reportResults s p (imp p)) ts st1 in
            let '(r, st3) := round_run n' (fun m => qs (S m)) imp st2 in (ts :: r, st3)
  end.
End PS.

(** _active_blocks_next_round is a vec<bool>, i.e. std::vector<bool>: 64 blocks share a machine word, and setting an element loads
    the word, sets one bit and stores the word.  reportResults is called by the tasks of a parallel_for
    (deterministic_flow_refinement_scheduler.cpp:129, 135-137).  The blocks of one word; [todo i]: the elements task i still has to set. *)
Record bst := mkB { word : nat -> bool; reg : nat -> option (nat -> bool); todo : nat -> list nat }.
Inductive blabel := BLoad (i : nat) | BStore (i : nat).
Definition bstep (st : bst) (l : blabel) : option bst :=
  match l with
  | BLoad i => match reg st i, todo st i with
               | None, _ :: _ => Some (mkB (word st) (upd (reg st) i (Some (word st))) (todo st))
               | _, _ => None
               end
  | BStore i => match reg st i, todo st i with
                | Some w, b :: r => Some (mkB (upd w b true) (upd (reg st) i None) (upd (todo st) i r))
                | _, _ => None
                end
  end.
Definition brun (st : bst) (l : list blabel) : option bst := fold_opt bstep st l.
Definition binit (w : nat -> bool) (t : nat -> list nat) : bst := mkB w (fun _ => None) t.
Definition bdone (st : bst) : Prop := forall i, reg st i = None /\ todo st i = [].
