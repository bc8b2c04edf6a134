(** Rollback.v - parallel gain recalculation of a global move sequence:
    mt-kahypar/partition/refinement/fm/global_rollback.cpp:201-252 (recalculateGainForHyperedge), 352-393
    (recalculateGains), gains/km1/km1_rollback.h, gains/cut/cut_rollback.h, gains/soed/soed_rollback.h, and the
    queries of GlobalMoveTracker (fm/fm_commons.h:47-105). *)
From Verif Require Import Base Spec SpecLemmas PHG PHGProofs Objective GainCache GainCacheProofs Conc ConcRun.

(** Move, datastructures/hypergraph_common.h; an invalidated (locally reverted) move is [None] (isValid() = false). *)
Record rmove := mkRM { r_node : nat; r_from : nat; r_to : nat }.
(** GlobalMoveTracker: firstMoveID, moveOrder[0 .. numPerformedMoves-1], moveOfNode; runningMoveID = first + number of moves. *)
Record tracker := mkT { t_first : Z; t_order : list (option rmove); t_of : nat -> Z }.
Definition numMoves (t : tracker) : nat := length (t_order t).
(** wasNodeMovedInThisRound (fm_commons.h:84-92) combined with getMove(moveOfNode[u]): the id and the move of [u]. *)
Definition move_of (t : tracker) (u : nat) : option (Z * rmove) :=
  let id := t_of t u in
  if (t_first t <=? id) && (id <? t_first t + Z.of_nat (numMoves t)) then
    match nth_error (t_order t) (Z.to_nat (id - t_first t)) with Some (Some m) => Some (id, m) | _ => None end
  else None.

(** std::numeric_limits<MoveID>::max() (MoveID = uint32_t). *)
Definition MAXID : Z := 2 ^ 32 - 1.

(** The Rollback policy classes. *)
Record rb_policy := mkRB {
  rb_D : Type; rb_zero : rb_D;                                        (* RecalculationData and reset() *)
  rb_move : Z -> rmove -> (nat -> rb_D) -> nat -> rb_D;               (* updateMove *)
  rb_non : nat -> (nat -> rb_D) -> nat -> rb_D;                       (* updateNonMovedPinInBlock *)
  rb_benefit : Z -> Z -> (nat -> Z) -> Z -> rmove -> (nat -> rb_D) -> Z; (* edge weight, edge size, pinCountInPart(e,.), id, move, data *)
  rb_penalty : Z -> Z -> (nat -> Z) -> Z -> rmove -> (nat -> rb_D) -> Z
}.

(** km1_rollback.h:59-117 *)
Record kdata := mkKD { first_in : Z; last_out : Z; remaining : Z }.
Definition kzero : kdata := mkKD MAXID 0 0.
Definition k_move (id : Z) (m : rmove) (r : nat -> kdata) : nat -> kdata :=
  let r1 := upd r (r_to m) (mkKD (Z.min (first_in (r (r_to m))) id) (last_out (r (r_to m))) (remaining (r (r_to m)))) in
  upd r1 (r_from m) (mkKD (first_in (r1 (r_from m))) (Z.max (last_out (r1 (r_from m))) id) (remaining (r1 (r_from m)))).
Definition k_non (b : nat) (r : nat -> kdata) : nat -> kdata :=
  upd r b (mkKD (first_in (r b)) (last_out (r b)) (remaining (r b) + 1)).
Definition k_benefit (w size : Z) (pcn : nat -> Z) (id : Z) (m : rmove) (r : nat -> kdata) : Z :=
  Z.b2z ((last_out (r (r_from m)) =? id) && (id <? first_in (r (r_from m))) && (remaining (r (r_from m)) =? 0)) * w.
Definition k_penalty (w size : Z) (pcn : nat -> Z) (id : Z) (m : rmove) (r : nat -> kdata) : Z :=
  Z.b2z ((first_in (r (r_to m)) =? id) && (last_out (r (r_to m)) <? id) && (remaining (r (r_to m)) =? 0)) * w.
Definition km1_rollback : rb_policy := mkRB kdata kzero k_move k_non k_benefit k_penalty.

(** cut_rollback.h:57-118 *)
Record cdata := mkCD { first_out : Z; last_in : Z; moved_out : Z }.
Definition czero : cdata := mkCD MAXID 0 0.
Definition c_move (id : Z) (m : rmove) (r : nat -> cdata) : nat -> cdata :=
  let r1 := upd r (r_from m) (mkCD (Z.min (first_out (r (r_from m))) id) (last_in (r (r_from m))) (moved_out (r (r_from m)))) in
  let r2 := upd r1 (r_to m) (mkCD (first_out (r1 (r_to m))) (Z.max (last_in (r1 (r_to m))) id) (moved_out (r1 (r_to m)))) in
  upd r2 (r_from m) (mkCD (first_out (r2 (r_from m))) (last_in (r2 (r_from m))) (moved_out (r2 (r_from m)) + 1)).
Definition c_non (b : nat) (r : nat -> cdata) : nat -> cdata := r.
Definition c_benefit (w size : Z) (pcn : nat -> Z) (id : Z) (m : rmove) (r : nat -> cdata) : Z :=
  Z.b2z ((pcn (r_to m) + moved_out (r (r_to m)) =? size) && ((last_in (r (r_to m)) =? id) && (id <? first_out (r (r_to m))))) * w.
Definition c_penalty (w size : Z) (pcn : nat -> Z) (id : Z) (m : rmove) (r : nat -> cdata) : Z :=
  Z.b2z ((pcn (r_from m) + moved_out (r (r_from m)) =? size) && ((first_out (r (r_from m)) =? id) && (last_in (r (r_from m)) <? id))) * w.
Definition cut_rollback : rb_policy := mkRB cdata czero c_move c_non c_benefit c_penalty.

(** soed_rollback.h:60-150: both data sets side by side. *)
Definition s_move (id : Z) (m : rmove) (r : nat -> cdata * kdata) (b : nat) : cdata * kdata :=
  (c_move id m (fun x => fst (r x)) b, k_move id m (fun x => snd (r x)) b).
Definition s_non (b : nat) (r : nat -> cdata * kdata) (x : nat) : cdata * kdata := (fst (r x), k_non b (fun y => snd (r y)) x).
Definition s_benefit (w size : Z) (pcn : nat -> Z) (id : Z) (m : rmove) (r : nat -> cdata * kdata) : Z :=
  k_benefit w size pcn id m (fun x => snd (r x)) + c_benefit w size pcn id m (fun x => fst (r x)).
Definition s_penalty (w size : Z) (pcn : nat -> Z) (id : Z) (m : rmove) (r : nat -> cdata * kdata) : Z :=
  k_penalty w size pcn id m (fun x => snd (r x)) + c_penalty w size pcn id m (fun x => fst (r x)).
Definition soed_rollback : rb_policy := mkRB (cdata * kdata) (czero, kzero) s_move s_non s_benefit s_penalty.

Section Recalc.
Variable R : rb_policy.
Variables (H : hypergraph) (k : nat) (t : tracker) (s : phg).

(** global_rollback.cpp:207-218: auxiliary data.  An unassigned pin (undefined behaviour: r[-1]) leaves r unchanged. *)
Definition collect1 (r : nat -> rb_D R) (v : nat) : nat -> rb_D R :=
  match move_of t v with
  | Some (id, m) => rb_move R id m r
  | None => match part s v with Some b => rb_non R b r | None => r end
  end.
Definition collect (ps : list nat) (r : nat -> rb_D R) : nat -> rb_D R := fold_left collect1 ps r.
(** :220-241: distribute the gains; [g] are the gain fields of moveOrder. *)
Definition pos (x : Z) : Z := if 0 <? x then x else 0.
Definition distribute1 (e : nat) (r : nat -> rb_D R) (g : nat -> Z) (v : nat) : nat -> Z :=
  match move_of t v with
  | Some (id, m) =>
    let w := ew H e in let size := Z.of_nat (length (pins H e)) in
    let i := Z.to_nat (id - t_first t) in
    let g1 := upd g i (g i + pos (rb_benefit R w size (pinCountInPart s e) id m r)) in
    upd g1 i (g1 i - pos (rb_penalty R w size (pinCountInPart s e) id m r))
  | None => g
  end.
Definition distribute (e : nat) (r : nat -> rb_D R) (g : nat -> Z) : nat -> Z := fold_left (distribute1 e r) (pins H e) g.
(** :243-258: reset the thread-local data, block-wise or pin-wise. *)
Definition reset1 (r : nat -> rb_D R) (v : nat) : nat -> rb_D R :=
  match move_of t v with
  | Some (_, m) => upd (upd r (r_from m) (rb_zero R)) (r_to m) (rb_zero R)
  | None => match part s v with Some b => upd r b (rb_zero R) | None => r end
  end.
Definition resetData (e : nat) (r : nat -> rb_D R) : nat -> rb_D R :=
  if Z.of_nat k <=? 2 * Z.of_nat (length (pins H e))
  then fold_left (fun r b => upd r b (rb_zero R)) (seq 0 k) r
  else fold_left reset1 (pins H e) r.
(** recalculateGainForHyperedge by thread [i] (its ets_recalc_data is [fst st i]). *)
Definition recalcEdge (st : (nat -> nat -> rb_D R) * (nat -> Z)) (ie : nat * nat) : (nat -> nat -> rb_D R) * (nat -> Z) :=
  let (i, e) := ie in
  let r := collect (pins H e) (fst st i) in
  let g := distribute e r (snd st) in
  (upd (fst st) i (resetData e r), g).
(** recalculateGains: gains are zeroed, then the hyperedges of [sched] (thread, hyperedge) are processed.  The
    atomic additions of different hyperedges commute; they are executed hyperedge by hyperedge here. *)
Definition recalculateGains (rs : nat -> nat -> rb_D R) (sched : list (nat * nat)) : (nat -> nat -> rb_D R) * (nat -> Z) :=
  fold_left recalcEdge sched (rs, fun _ => 0).
End Recalc.

(** ---- specification ---- *)
(** The valid moves among the first [i] entries, executed one after another from [P0]. *)
Definition valid_moves (l : list (option rmove)) : list (nat * nat) :=
  flat_map (fun o => match o with Some m => [(r_node m, r_to m)] | None => [] end) l.
Definition prefix (P0 : partition) (t : tracker) (i : nat) : partition := moves P0 (valid_moves (firstn i (t_order t))).

(** A move sequence of a round started from [P0]: ids fit into MoveID, each valid move starts in the initial
    block of its node, and the tracker's index points to it (each node has at most one valid move). *)
Record round_ok (H : hypergraph) (k : nat) (P0 : partition) (t : tracker) : Prop := {
  ro_first : 1 <= t_first t;
  ro_ids : t_first t + Z.of_nat (numMoves t) <= MAXID;
  ro_valid : forall i m, nth_error (t_order t) i = Some (Some m) ->
    In (r_node m) (nodes H) /\ P0 (r_node m) = Some (r_from m) /\ r_from m <> r_to m /\ (r_to m < k)%nat /\
    t_of t (r_node m) = t_first t + Z.of_nat i;
  ro_node : forall u id m, move_of t u = Some (id, m) -> r_node m = u
}.

(** ---- proofs ---- *)
Lemma move_of_idx t i m : nth_error (t_order t) i = Some (Some m) -> t_of t (r_node m) = t_first t + Z.of_nat i ->
  move_of t (r_node m) = Some (t_first t + Z.of_nat i, m).
Proof.
  intros E Eo. unfold move_of, numMoves. rewrite Eo. assert (i < length (t_order t))%nat by (apply nth_error_Some; congruence).
  replace (_ <=? _) with true by lia. replace (_ <? _) with true by lia. cbn [andb].
  replace (Z.to_nat _) with i by lia. rewrite E. reflexivity.
Qed.
Lemma move_of_inv t u id m : move_of t u = Some (id, m) ->
  exists i, (i < numMoves t)%nat /\ id = t_first t + Z.of_nat i /\ nth_error (t_order t) i = Some (Some m) /\ t_of t u = id.
Proof.
  unfold move_of. destruct (_ && _) eqn:E; [|discriminate]. apply andb_true_iff in E. destruct E as [E1 E2].
  destruct (nth_error _ _) as [[m'|]|] eqn:En; try discriminate. intros X. injection X as <- <-.
  exists (Z.to_nat (t_of t u - t_first t)). repeat split; try exact En; lia.
Qed.

(** Block of [v] after the first [i] entries. *)
Definition at_time (P0 : partition) (t : tracker) (i : nat) : partition := fun v =>
  match move_of t v with
  | Some (id, m) => Some (if id <? t_first t + Z.of_nat i then r_to m else r_from m)
  | None => P0 v
  end.

Lemma moves_app P a b : moves P (a ++ b) = moves (moves P a) b.
Proof. unfold moves. apply fold_left_app. Qed.
Lemma valid_moves_app a b : valid_moves (a ++ b) = valid_moves a ++ valid_moves b.
Proof. unfold valid_moves. apply flat_map_app. Qed.
Lemma firstn_snoc {A} (l : list A) i x : nth_error l i = Some x -> firstn (S i) l = firstn i l ++ [x].
Proof.
  revert i; induction l as [|a l IH]; intros [|i] E; simpl in E; try discriminate.
  - injection E as ->. reflexivity.
  - simpl. f_equal. apply IH. exact E.
Qed.

Lemma prefix_S P0 t i o : nth_error (t_order t) i = Some o ->
  prefix P0 t (S i) = match o with Some m => move (prefix P0 t i) (r_node m) (r_to m) | None => prefix P0 t i end.
Proof.
  intros E. unfold prefix. rewrite (firstn_snoc _ _ _ E), valid_moves_app, moves_app. destruct o as [m|]; reflexivity.
Qed.

Lemma prefix_at H k P0 t i : round_ok H k P0 t -> (i <= numMoves t)%nat -> forall v, prefix P0 t i v = at_time P0 t i v.
Proof.
  intros RO. induction i as [|i IH]; intros Hi v.
  - unfold prefix, at_time. simpl. destruct (move_of t v) as [[id m]|] eqn:E; [|reflexivity].
    destruct (move_of_inv t v id m E) as (j & Hj & -> & En & _). pose proof (ro_node H k P0 t RO v _ m E) as <-.
    destruct (ro_valid H k P0 t RO j m En) as (_ & X & _). replace (_ <? _) with false by lia. exact X.
  - specialize (IH ltac:(lia)). destruct (nth_error (t_order t) i) as [o|] eqn:En.
    2: { apply nth_error_None in En. unfold numMoves in Hi. lia. }
    rewrite (prefix_S P0 t i o En). unfold at_time in *. destruct (move_of t v) as [[id m]|] eqn:E.
    + destruct (move_of_inv t v id m E) as (j & Hj & -> & Enj & _). pose proof (ro_node H k P0 t RO v _ m E) as Hv.
      destruct (Nat.eq_dec j i) as [->|Hji].
      * rewrite En in Enj. injection Enj as ->. replace (_ <? _) with true by lia. rewrite <- Hv. apply upd_same.
      * replace (t_first t + Z.of_nat j <? t_first t + Z.of_nat (S i)) with (t_first t + Z.of_nat j <? t_first t + Z.of_nat i) by lia.
        destruct o as [m'|]; [|rewrite IH, E; reflexivity].
        destruct (ro_valid H k P0 t RO i m' En) as (_ & _ & _ & _ & X). destruct (ro_valid H k P0 t RO j m Enj) as (_ & _ & _ & _ & Y).
        unfold move. rewrite upd_other; [rewrite IH, E; reflexivity|]. intros ->. rewrite Hv in Y. rewrite X in Y. lia.
    + destruct o as [m'|]; [|rewrite IH, E; reflexivity]. unfold move. destruct (ro_valid H k P0 t RO i m' En) as (_ & _ & _ & _ & X).
      rewrite upd_other; [rewrite IH, E; reflexivity|]. intros ->. rewrite (move_of_idx t i m' En X) in E. discriminate.
Qed.

Lemma prefix_all_valid H k P0 t i m : round_ok H k P0 t -> nth_error (t_order t) i = Some (Some m) -> at_time P0 t i (r_node m) = Some (r_from m).
Proof.
  intros RO En. unfold at_time. destruct (ro_valid H k P0 t RO i m En) as (_ & _ & _ & _ & X). rewrite (move_of_idx t i m En X).
  replace (_ <? _) with false by lia. reflexivity.
Qed.

Lemma collect_cons R t s a l r : collect R t s (a :: l) r = collect R t s l (collect1 R t s r a).
Proof. reflexivity. Qed.

Lemma cc_upd (f : cdata -> Z) (r : nat -> cdata) c d b : f d = f (r c) -> f (upd r c d b) = f (r b).
Proof. intros E. unfold upd. destruct (Nat.eqb_spec b c) as [->|]; [exact E|reflexivity]. Qed.

Lemma c_move_last_in id m r b : last_in (c_move id m r b) = if Nat.eqb b (r_to m) then Z.max (last_in (r b)) id else last_in (r b).
Proof.
  unfold c_move. cbv zeta. rewrite (cc_upd last_in) by reflexivity. set (r1 := upd r (r_from m) _).
  assert (Y : forall c, last_in (r1 c) = last_in (r c)) by (intros c; unfold r1; apply (cc_upd last_in); reflexivity).
  unfold upd. destruct (Nat.eqb_spec b (r_to m)) as [->|Hbf]; cbn [last_in]; rewrite Y; reflexivity.
Qed.
Lemma c_move_moved_out id m r b : moved_out (c_move id m r b) = moved_out (r b) + Z.b2z (Nat.eqb b (r_from m)).
Proof.
  unfold c_move. cbv zeta. set (r1 := upd r (r_from m) _). set (r2 := upd r1 (r_to m) _).
  assert (Y1 : forall c, moved_out (r1 c) = moved_out (r c)) by (intros c; unfold r1; apply (cc_upd moved_out); reflexivity).
  assert (Y2 : forall c, moved_out (r2 c) = moved_out (r1 c)) by (intros c; unfold r2; apply (cc_upd moved_out); reflexivity).
  unfold upd. destruct (Nat.eqb_spec b (r_from m)) as [->|]; cbn [moved_out Z.b2z]; rewrite Y2, Y1; lia.
Qed.

Section Data.
Variables (t : tracker) (s : phg).
Notation kcollect := (collect km1_rollback t s).
Notation ccollect := (collect cut_rollback t s).
Notation scollect := (collect soed_rollback t s).

Lemma kc_first_in l : forall r b x,
  (x < first_in (kcollect l r b) <-> x < first_in (r b) /\ forall v id m, In v l -> move_of t v = Some (id, m) -> r_to m = b -> x < id).
Proof.
  induction l as [|a l IH]; intros r b x; simpl; [split; [intros; split; [assumption|intros ? ? ? []]|tauto]|].
  rewrite IH. unfold collect1. simpl.
  assert (S1 : x < first_in (match move_of t a with Some (id, m) => k_move id m r | None => match part s a with Some c => k_non c r | None => r end end b)
    <-> x < first_in (r b) /\ forall id m, move_of t a = Some (id, m) -> r_to m = b -> x < id).
  { destruct (move_of t a) as [[id m]|].
    - unfold k_move. destruct (Nat.eqb_spec b (r_from m)) as [->|Hbf].
      + rewrite upd_same. simpl. unfold upd at 1. destruct (Nat.eqb_spec (r_from m) (r_to m)) as [->|Hft]; simpl.
        * rewrite Z.min_glb_lt_iff. split; [intros [A B]; split; [exact A|]|intros [A B]; split; [exact A|eapply B; eauto]].
          intros id' m' E _. injection E as <- <-. exact B.
        * split; [intros A; split; [exact A|]|tauto]. intros id' m' E X. injection E as <- <-. congruence.
      + rewrite upd_other by exact Hbf. unfold upd. destruct (Nat.eqb_spec b (r_to m)) as [->|Hbt]; simpl.
        * rewrite Z.min_glb_lt_iff. split; [intros [A B]; split; [exact A|]|intros [A B]; split; [exact A|eapply B; eauto]].
          intros id' m' E _. injection E as <- <-. exact B.
        * split; [intros A; split; [exact A|]|tauto]. intros id' m' E X. injection E as <- <-. congruence.
    - assert (X : first_in (match part s a with Some c => k_non c r | None => r end b) = first_in (r b)).
      { destruct (part s a) as [c|]; [|reflexivity]. unfold k_non, upd. destruct (Nat.eqb_spec b c) as [->|]; reflexivity. }
      rewrite X. split; [intros A; split; [exact A|discriminate]|tauto]. }
  rewrite S1. split.
  - intros [[A B] C]. split; [exact A|]. intros v id m [<-|Hv]; [apply B|apply (C v id m Hv)].
  - intros [A B]. split; [split; [exact A|]|]; [intros id m E; apply (B a id m); auto|intros v id m Hv; apply (B v id m); auto].
Qed.

Lemma kc_last_out l : forall r b x,
  (last_out (kcollect l r b) < x <-> last_out (r b) < x /\ forall v id m, In v l -> move_of t v = Some (id, m) -> r_from m = b -> id < x).
Proof.
  induction l as [|a l IH]; intros r b x; simpl; [split; [intros; split; [assumption|intros ? ? ? []]|tauto]|].
  rewrite IH. unfold collect1. simpl.
  assert (S1 : last_out (match move_of t a with Some (id, m) => k_move id m r | None => match part s a with Some c => k_non c r | None => r end end b) < x
    <-> last_out (r b) < x /\ forall id m, move_of t a = Some (id, m) -> r_from m = b -> id < x).
  { destruct (move_of t a) as [[id m]|].
    - unfold k_move.
      assert (Y : forall c, last_out (upd r (r_to m) (mkKD (Z.min (first_in (r (r_to m))) id) (last_out (r (r_to m))) (remaining (r (r_to m)))) c) = last_out (r c)).
      { intros c. unfold upd. destruct (Nat.eqb_spec c (r_to m)) as [->|]; reflexivity. }
      unfold upd at 1. destruct (Nat.eqb_spec b (r_from m)) as [->|Hbf]; cbn [last_out]; rewrite Y.
      + rewrite Z.max_lub_lt_iff. split; [intros [A B]; split; [exact A|]|intros [A B]; split; [exact A|eapply B; eauto]].
        intros id' m' E _. injection E as <- <-. exact B.
      + split; [intros A; split; [exact A|]|tauto]. intros id' m' E X. injection E as <- <-. congruence.
    - assert (X : last_out (match part s a with Some c => k_non c r | None => r end b) = last_out (r b)).
      { destruct (part s a) as [c|]; [|reflexivity]. unfold k_non, upd. destruct (Nat.eqb_spec b c) as [->|]; reflexivity. }
      rewrite X. split; [intros A; split; [exact A|discriminate]|tauto]. }
  rewrite S1. split.
  - intros [[A B] C]. split; [exact A|]. intros v id m [<-|Hv]; [apply B|apply (C v id m Hv)].
  - intros [A B]. split; [split; [exact A|]|]; [intros id m E; apply (B a id m); auto|intros v id m Hv; apply (B v id m); auto].
Qed.

Definition nonmoved_in (b v : nat) : bool := match move_of t v with Some _ => false | None => in_block (part s) b v end.
Lemma kc_remaining l : forall r b, remaining (kcollect l r b) = remaining (r b) + sumZ (fun v => Z.b2z (nonmoved_in b v)) l.
Proof.
  induction l as [|a l IH]; intros r b; [simpl; lia|]. rewrite collect_cons, IH. cbn [sumZ].
  unfold collect1, nonmoved_in, in_block. simpl. destruct (move_of t a) as [[id m]|].
  - cbn [Z.b2z]. unfold k_move.
    assert (Y : forall c, remaining (upd r (r_to m) (mkKD (Z.min (first_in (r (r_to m))) id) (last_out (r (r_to m))) (remaining (r (r_to m)))) c) = remaining (r c)).
    { intros c. unfold upd. destruct (Nat.eqb_spec c (r_to m)) as [->|]; reflexivity. }
    unfold upd at 1. destruct (Nat.eqb_spec b (r_from m)) as [->|]; cbn [remaining]; rewrite Y; lia.
  - destruct (part s a) as [c|]; [|cbn [Z.b2z]; lia]. unfold k_non, upd. rewrite (Nat.eqb_sym c b).
    destruct (Nat.eqb_spec b c) as [->|]; cbn [remaining Z.b2z]; lia.
Qed.

Lemma cc_first_out l : forall r b x,
  (x < first_out (ccollect l r b) <-> x < first_out (r b) /\ forall v id m, In v l -> move_of t v = Some (id, m) -> r_from m = b -> x < id).
Proof.
  induction l as [|a l IH]; intros r b x; simpl; [split; [intros; split; [assumption|intros ? ? ? []]|tauto]|].
  rewrite IH. unfold collect1. simpl.
  assert (S1 : x < first_out (match move_of t a with Some (id, m) => c_move id m r | None => match part s a with Some c => c_non c r | None => r end end b)
    <-> x < first_out (r b) /\ forall id m, move_of t a = Some (id, m) -> r_from m = b -> x < id).
  { destruct (move_of t a) as [[id m]|].
    - unfold c_move. cbv zeta. rewrite (cc_upd first_out) by reflexivity. rewrite (cc_upd first_out) by reflexivity.
      unfold upd. destruct (Nat.eqb_spec b (r_from m)) as [->|Hbf]; cbn [first_out].
      + rewrite Z.min_glb_lt_iff. split; [intros [A B]; split; [exact A|]|intros [A B]; split; [exact A|eapply B; eauto]].
        intros id' m' E _. injection E as <- <-. exact B.
      + split; [intros A; split; [exact A|]|tauto]. intros id' m' E X. injection E as <- <-. congruence.
    - assert (X : first_out (match part s a with Some c => c_non c r | None => r end b) = first_out (r b)).
      { destruct (part s a) as [c|]; reflexivity. }
      rewrite X. split; [intros A; split; [exact A|discriminate]|tauto]. }
  rewrite S1. split.
  - intros [[A B] C]. split; [exact A|]. intros v id m [<-|Hv]; [apply B|apply (C v id m Hv)].
  - intros [A B]. split; [split; [exact A|]|]; [intros id m E; apply (B a id m); auto|intros v id m Hv; apply (B v id m); auto].
Qed.

Lemma cc_last_in l : forall r b x,
  (last_in (ccollect l r b) < x <-> last_in (r b) < x /\ forall v id m, In v l -> move_of t v = Some (id, m) -> r_to m = b -> id < x).
Proof.
  induction l as [|a l IH]; intros r b x; simpl; [split; [intros; split; [assumption|intros ? ? ? []]|tauto]|].
  rewrite IH. unfold collect1. simpl.
  assert (S1 : last_in (match move_of t a with Some (id, m) => c_move id m r | None => match part s a with Some c => c_non c r | None => r end end b) < x
    <-> last_in (r b) < x /\ forall id m, move_of t a = Some (id, m) -> r_to m = b -> id < x).
  { destruct (move_of t a) as [[id m]|].
    - rewrite c_move_last_in. destruct (Nat.eqb_spec b (r_to m)) as [->|Hbf].
      + rewrite Z.max_lub_lt_iff. split; [intros [A B]; split; [exact A|]|intros [A B]; split; [exact A|eapply B; eauto]].
        intros id' m' E _. injection E as <- <-. exact B.
      + split; [intros A; split; [exact A|]|tauto]. intros id' m' E X. injection E as <- <-. congruence.
    - assert (X : last_in (match part s a with Some c => c_non c r | None => r end b) = last_in (r b)).
      { destruct (part s a) as [c|]; reflexivity. }
      rewrite X. split; [intros A; split; [exact A|discriminate]|tauto]. }
  rewrite S1. split.
  - intros [[A B] C]. split; [exact A|]. intros v id m [<-|Hv]; [apply B|apply (C v id m Hv)].
  - intros [A B]. split; [split; [exact A|]|]; [intros id m E; apply (B a id m); auto|intros v id m Hv; apply (B v id m); auto].
Qed.

Definition moved_from (b v : nat) : bool := match move_of t v with Some (_, m) => Nat.eqb (r_from m) b | None => false end.
Lemma cc_moved_out l : forall r b, moved_out (ccollect l r b) = moved_out (r b) + sumZ (fun v => Z.b2z (moved_from b v)) l.
Proof.
  induction l as [|a l IH]; intros r b; [simpl; lia|]. rewrite collect_cons, IH. cbn [sumZ].
  unfold collect1, moved_from. simpl. destruct (move_of t a) as [[id m]|].
  - rewrite c_move_moved_out, (Nat.eqb_sym (r_from m) b). destruct (Nat.eqb_spec b (r_from m)) as [->|]; cbn [Z.b2z]; lia.
  - cbn [Z.b2z]. destruct (part s a); unfold c_non; lia.
Qed.

(** The soed data are the two others. *)
Lemma k_move_ext id m r r' : (forall b, r b = r' b) -> forall b, k_move id m r b = k_move id m r' b.
Proof. intros E b. unfold k_move, upd. repeat (destruct (Nat.eqb _ _)); rewrite ?E; reflexivity. Qed.
Lemma c_move_ext id m r r' : (forall b, r b = r' b) -> forall b, c_move id m r b = c_move id m r' b.
Proof. intros E b. unfold c_move, upd. repeat (destruct (Nat.eqb _ _)); rewrite ?E; reflexivity. Qed.
Lemma sc_split l : forall r rc rk, (forall b, r b = (rc b, rk b)) ->
  forall b, scollect l r b = (ccollect l rc b, kcollect l rk b).
Proof.
  induction l as [|a l IH]; intros r rc rk E b; [apply E|]. rewrite !collect_cons. apply IH. clear b. intros b.
  unfold collect1. simpl. destruct (move_of t a) as [[id m]|].
  - unfold s_move. f_equal; [apply c_move_ext|apply k_move_ext]; intros x; rewrite E; reflexivity.
  - destruct (part s a) as [c|]; [|apply E]. unfold s_non, c_non. rewrite E. cbn [fst]. f_equal.
    unfold k_non, upd. destruct (Nat.eqb b c); rewrite ?E; reflexivity.
Qed.
End Data.

Definition clean (R : rb_policy) (r : nat -> rb_D R) : Prop := forall b, r b = rb_zero R.

(** Generic part: thread-local data is clean between hyperedges. *)
Section Reset.
Variables (R : rb_policy) (H : hypergraph) (k : nat) (t : tracker) (s : phg).
(** An update only touches the blocks of the move. *)
Definition local_policy : Prop :=
  (forall id m r b, b <> r_from m -> b <> r_to m -> rb_move R id m r b = r b) /\ (forall c r b, b <> c -> rb_non R c r b = r b).
Hypothesis LP : local_policy.
Definition touches (v b : nat) : Prop := match move_of t v with Some (_, m) => b = r_from m \/ b = r_to m | None => part s v = Some b end.

Lemma collect_frame l : forall r b, (forall v, In v l -> ~ touches v b) -> collect R t s l r b = r b.
Proof.
  destruct LP as [L1 L2]. induction l as [|a l IH]; intros r b Hn; [reflexivity|]. rewrite collect_cons.
  rewrite IH by (intros v Hv; apply Hn; right; exact Hv). specialize (Hn a (or_introl eq_refl)). unfold touches in Hn. unfold collect1.
  destruct (move_of t a) as [[id m]|]; [apply L1; tauto|]. destruct (part s a) as [c|]; [apply L2; congruence|reflexivity].
Qed.

Lemma reset_fold_all bs : forall (r : nat -> rb_D R) b, (In b bs -> fold_left (fun r b => upd r b (rb_zero R)) bs r b = rb_zero R) /\
  (r b = rb_zero R -> fold_left (fun r b => upd r b (rb_zero R)) bs r b = rb_zero R).
Proof.
  induction bs as [|c bs IH]; intros r b; simpl; [tauto|]. destruct (IH (upd r c (rb_zero R)) b) as [A B]. split.
  - intros [->|Hb]; [apply B, upd_same|apply A, Hb].
  - intros E. apply B. unfold upd. destruct (Nat.eqb b c); [reflexivity|exact E].
Qed.

Lemma reset_fold_pins l : forall r b, ((exists v, In v l /\ touches v b) -> fold_left (reset1 R t s) l r b = rb_zero R) /\
  (r b = rb_zero R -> fold_left (reset1 R t s) l r b = rb_zero R).
Proof.
  induction l as [|a l IH]; intros r b; simpl; [split; [intros (v & [] & _)|auto]|].
  destruct (IH (reset1 R t s r a) b) as [A B]. split.
  - intros (v & [<-|Hv] & Ht); [|apply A; eauto]. apply B. unfold reset1. unfold touches in Ht.
    destruct (move_of t a) as [[id m]|].
    + destruct Ht as [-> | ->]; [|apply upd_same]. unfold upd at 1. destruct (Nat.eqb _ _); [reflexivity|apply upd_same].
    + rewrite Ht. apply upd_same.
  - intros E. apply B. unfold reset1. destruct (move_of t a) as [[id m]|].
    + unfold upd. repeat (destruct (Nat.eqb _ _)); auto.
    + destruct (part s a); [|exact E]. unfold upd. destruct (Nat.eqb _ _); auto.
Qed.

Lemma touches_dec v b : {touches v b} + {~ touches v b}.
Proof.
  unfold touches. destruct (move_of t v) as [[id m]|].
  - destruct (Nat.eq_dec b (r_from m)); [left; tauto|]. destruct (Nat.eq_dec b (r_to m)); [left; tauto|right; tauto].
  - destruct (part s v) as [c|]; [|right; discriminate]. destruct (Nat.eq_dec c b); [left; congruence|right; congruence].
Qed.

Lemma edge_reset e r : clean R r -> (forall v b, In v (pins H e) -> touches v b -> (b < k)%nat) ->
  clean R (resetData R H k t s e (collect R t s (pins H e) r)).
Proof.
  intros Hc Hk b. unfold resetData.
  assert (D : {v | In v (pins H e) /\ touches v b} + {forall v, In v (pins H e) -> ~ touches v b}).
  { clear Hk. induction (pins H e) as [|a l IH]; [right; intros v []|].
    destruct (touches_dec a b) as [Ht|Ht]; [left; exists a; split; [left; reflexivity|exact Ht]|].
    destruct IH as [[v [Hv Hv2]]|IH]; [left; exists v; split; [right; exact Hv|exact Hv2]|].
    right. intros v [<-|Hv]; [exact Ht|apply IH, Hv]. }
  destruct (_ <=? _).
  - destruct D as [[v [Hv Hb]]|Hn].
    + apply (proj1 (reset_fold_all _ _ _)). apply in_seq. specialize (Hk v b Hv Hb). lia.
    + apply (proj2 (reset_fold_all _ _ _)). rewrite collect_frame by exact Hn. apply Hc.
  - destruct D as [[v [Hv Hb]]|Hn].
    + apply (proj1 (reset_fold_pins _ _ _)). eauto.
    + apply (proj2 (reset_fold_pins _ _ _)). rewrite collect_frame by exact Hn. apply Hc.
Qed.
End Reset.

Lemma km1_local : local_policy km1_rollback.
Proof.
  split; simpl.
  - intros id m r b H1 H2. unfold k_move. rewrite !upd_other by assumption. reflexivity.
  - intros c r b Hb. unfold k_non. apply upd_other. exact Hb.
Qed.
Lemma cut_local : local_policy cut_rollback.
Proof.
  split; simpl.
  - intros id m r b H1 H2. unfold c_move. rewrite !upd_other by assumption. reflexivity.
  - intros c r b Hb. reflexivity.
Qed.
Lemma soed_local : local_policy soed_rollback.
Proof.
  split; simpl.
  - intros id m r b H1 H2. unfold s_move, c_move, k_move. rewrite !upd_other by assumption. destruct (r b); reflexivity.
  - intros c r b Hb. unfold s_non, k_non. rewrite upd_other by assumption. destruct (r b); reflexivity.
Qed.
