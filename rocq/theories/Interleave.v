(** Interleave.v - merging the rebalancing moves into the move sequence of an unconstrained FM round:
    mt-kahypar/partition/refinement/fm/multitry_kway_fm.cpp:276-384 (interleaveMoveSequenceWithRebalancingMoves) and
    386-413 (insertMovesToBalanceBlock).  The result is the input of the global rollback (Rollback.v, Scan.v, Revert.v). *)
From Verif Require Import Base Spec SpecLemmas WfCheck PHG PHGProofs Rollback.

(** Move, datastructures/hypergraph_common.h:91-104: [im_from = None] is kInvalidPartition (invalidate() / isValid()).  The
    gain field is recomputed by the rollback and not modelled. *)
Record imove := mkIM { im_node : nat; im_from : option nat; im_to : nat }.
Definition valid (m : imove) : bool := match im_from m with Some _ => true | None => false end.
Definition invalidate (m : imove) : imove := mkIM (im_node m) None (im_to m).
(** GlobalMoveTracker, fm_commons.h:47-105: firstMoveID, the first numPerformedMoves() entries of moveOrder, moveOfNode;
    runningMoveID = first + number of entries. *)
Record itr := mkI { i_first : Z; i_order : list imove; i_of : nat -> Z }.
(** The same object as the rollback sees it. *)
Definition view1 (m : imove) : option rmove := match im_from m with Some f => Some (mkRM (im_node m) f (im_to m)) | None => None end.
Definition view (t : itr) : tracker := mkT (i_first t) (map view1 (i_order t)) (i_of t).

(** Array write. *)
Fixpoint set_nth {A} (l : list A) (i : nat) (x : A) : list A :=
  match l, i with
  | [], _ => []
  | _ :: l, O => x :: l
  | a :: l, S i => a :: set_nth l i x
  end.

(** wasNodeMovedInThisRound, fm_commons.h:84-92, with the index of the move. *)
Definition moved_idx (t : itr) (u : nat) : option nat :=
  let id := i_of t u in
  if (i_first t <=? id) && (id <? i_first t + Z.of_nat (length (i_order t))) then
    let j := Z.to_nat (id - i_first t) in
    match nth_error (i_order t) j with Some m => if valid m then Some j else None | None => None end
  else None.

(** Body of the parallel loop, :299-317, for entry [i] of the rebalancing moves of block [p].  Bodies of different entries
    touch different nodes, hence different memory; they are executed one after another here, in any order. *)
Definition merge1 (st : itr * (nat -> list imove)) (pi : nat * nat) : itr * (nat -> list imove) :=
  let '(t, reb) := st in let '(p, i) := pi in
  match nth_error (reb p) i with
  | None => st
  | Some r =>
    match (if valid r then moved_idx t (im_node r) else None) with
    | None => st
    | Some j =>
      match nth_error (i_order t) j with
      | None => st
      | Some fm =>
        if (match im_from fm with Some f => Nat.eqb f (im_to r) | None => false end)
        then (mkI (i_first t) (set_nth (i_order t) j (invalidate fm)) (upd (i_of t) (im_node r) 0),
              upd reb p (set_nth (reb p) i (invalidate r)))
        else (mkI (i_first t) (set_nth (i_order t) j (invalidate fm)) (i_of t),
              upd reb p (set_nth (reb p) i (mkIM (im_node r) (im_from fm) (im_to r))))
      end
    end
  end.
Definition merge (t : itr) (reb : nat -> list imove) (sched : list (nat * nat)) : itr * (nat -> list imove) :=
  fold_left merge1 sched (t, reb).

Section Seq.
Variables (w : nat -> Z) (k : nat) (L : nat -> Z) (reb : nat -> list imove).
(** tmp_move_order[0 .. next_move_index-1], current_part_weights, current_rebalancing_move_index. *)
Record ist := mkS { s_out : list imove; s_w : nat -> Z; s_idx : nat -> nat }.
(** tmp_move_order[next_move_index++] = m, and the weight update if the move is valid (:352-357, :397-403). *)
Definition emit (st : ist) (m : imove) : ist :=
  mkS (s_out st ++ [m])
      (match im_from m with
       | Some f => let w1 := upd (s_w st) f (s_w st f - w (im_node m)) in upd w1 (im_to m) (w1 (im_to m) + w (im_node m))
       | None => s_w st
       end) (s_idx st).
Definition overloaded (st : ist) (b : nat) : bool := L b <? s_w st b.
(** insertMovesToBalanceBlock, :386-413.  [None] = out of fuel (never happens, see balance_total). *)
Fixpoint balance (fuel : nat) (b : nat) (st : ist) : option ist :=
  match fuel with
  | O => None
  | S fuel =>
    if overloaded st b then
      match nth_error (reb b) (s_idx st b) with
      | None => Some st
      | Some m =>
        let st1 := emit (mkS (s_out st) (s_w st) (upd (s_idx st) b (S (s_idx st b)))) m in
        if valid m && overloaded st1 (im_to m) then
          match balance fuel (im_to m) st1 with Some st2 => balance fuel b st2 | None => None end
        else balance fuel b st1
      end
    else Some st
  end.
(** Rebalancing moves not inserted yet. *)
Definition remaining (st : ist) : nat := list_sum (map (fun b => length (reb b) - s_idx st b)%nat (seq 0 k)).
(** insert_moves_to_balance_part, :334-339. *)
Definition insert_part (b : nat) (st : ist) : option ist :=
  if overloaded st b then balance (S (remaining st)) b st else Some st.
(** Body of the loop over the move sequence, :348-366; the second component is moveOfNode. *)
Definition seq1 (m : imove) (st : ist * (nat -> Z)) : option (ist * (nat -> Z)) :=
  if valid m then match insert_part (im_to m) (emit (fst st) m) with Some s => Some (s, snd st) | None => None end
  else Some (fst st, upd (snd st) (im_node m) 0).
Fixpoint seq_moves (l : list imove) (st : ist * (nat -> Z)) : option (ist * (nat -> Z)) :=
  match l with [] => Some st | m :: l => match seq1 m st with Some st => seq_moves l st | None => None end end.
Fixpoint seq_parts (l : list nat) (st : ist) : option ist :=
  match l with [] => Some st | b :: l => match insert_part b st with Some st => seq_parts l st | None => None end end.
(** :368-377: append the remaining rebalancing moves. *)
Definition tail_moves (st : ist) : list imove := concat (map (fun b => skipn (s_idx st b) (reb b)) (seq 0 k)).
End Seq.

(** :382-391: the new moveOfNode (the parallel loop writes different nodes). *)
Fixpoint renumber (id : Z) (l : list imove) (of : nat -> Z) : nat -> Z :=
  match l with [] => of | m :: l => renumber (id + 1) l (if valid m then upd of (im_node m) id else of) end.

(** interleaveMoveSequenceWithRebalancingMoves; [init] = initialPartWeights, [L] = max_part_weights, [sched] = the order in
    which the iterations of the parallel loops run. *)
Definition interleave (w : nat -> Z) (k : nat) (L init : nat -> Z) (t : itr) (reb : nat -> list imove) (sched : list (nat * nat)) : option itr :=
  let '(t1, reb1) := merge t reb sched in
  match seq_parts w k L reb1 (seq 0 k) (mkS [] init (fun _ => O)) with
  | None => None
  | Some st0 =>
    match seq_moves w k L reb1 (i_order t1) (st0, i_of t1) with
    | None => None
    | Some (st, of) =>
      let out := s_out st ++ tail_moves k reb1 st in
      Some (mkI (i_first t1) out (renumber (i_first t1) out of))
    end
  end.

(** ---- specification ---- *)
(** All rebalancing moves. *)
Definition all_reb (k : nat) (reb : nat -> list imove) : list imove := concat (map reb (seq 0 k)).
Definition reb_node (k : nat) (reb : nat -> list imove) (u : nat) : Prop := In u (map im_node (all_reb k reb)).
(** What the rebalancer hands over (the HEAVY_REFINEMENT_ASSERT at :283-294): every entry of list [p] is a move out of block
    [p] of the partition [P1] reached by the round, and no node is moved twice. *)
Record reb_ok (H : hypergraph) (k : nat) (P1 : partition) (reb : nat -> list imove) : Prop := {
  rb_valid : forall p m, (p < k)%nat -> In m (reb p) ->
    In (im_node m) (nodes H) /\ im_from m = Some p /\ P1 (im_node m) = Some p /\ p <> im_to m /\ (im_to m < k)%nat;
  rb_nodup : NoDup (map im_node (all_reb k reb))
}.
(** The partition after the rebalancing moves. *)
Definition rebalanced (k : nat) (P1 : partition) (reb : nat -> list imove) : partition :=
  moves P1 (map (fun m => (im_node m, im_to m)) (all_reb k reb)).
(** moveOfNode never points beyond the sequence and an id of this round points to a move of the node (the ASSERT in
    wasNodeMovedInThisRound, fm_commons.h:87). *)
Definition of_ok (t : itr) : Prop := forall u, i_first t <= i_of t u ->
  exists i m, i_of t u = i_first t + Z.of_nat i /\ nth_error (i_order t) i = Some m /\ im_node m = u.
(** The parallel loops visit every entry exactly once. *)
Definition merge_sched (k : nat) (reb : nat -> list imove) (sched : list (nat * nat)) : Prop :=
  NoDup sched /\ forall p i, In (p, i) sched <-> (p < k /\ i < length (reb p))%nat.
Definition valid_entries (t : itr) : list imove := filter valid (i_order t).

(** ---- proofs ---- *)
Lemma nth_error_ext {A} (l l' : list A) : (forall i, nth_error l i = nth_error l' i) -> l = l'.
Proof.
  revert l'; induction l as [|a l IH]; intros [|b l'] E; [reflexivity|discriminate (E 0%nat)|discriminate (E 0%nat)|].
  pose proof (E 0%nat) as E0. cbn in E0. injection E0 as ->. f_equal. apply IH. intros i. exact (E (S i)).
Qed.
Lemma nth_set {A} (l : list A) i x j : nth_error (set_nth l i x) j = if Nat.eqb j i then match nth_error l i with Some _ => Some x | None => None end else nth_error l j.
Proof. revert i j; induction l as [|a l IH]; intros [|i] [|j]; cbn; try reflexivity; [destruct (Nat.eqb j i); reflexivity|apply IH]. Qed.

Lemma concat_pos {A} (ll : list (list A)) : NoDup (concat ll) -> forall a a' l l' i i' x, nth_error ll a = Some l -> nth_error ll a' = Some l' ->
  nth_error l i = Some x -> nth_error l' i' = Some x -> a = a' /\ i = i'.
Proof.
  induction ll as [|h ll IH]; cbn; intros N a a' l l' i i' x Ea Ea' Ei Ei'; [destruct a; discriminate|].
  assert (N2 : NoDup (concat ll)).
  { clear - N. induction h as [|b h IHh]; [exact N|]. cbn in N. inversion N; subst. exact (IHh H2). }
  assert (D : forall y, In y h -> In y (concat ll) -> False).
  { clear - N. induction h as [|b h IHh]; intros y Y1 Y2; [exact Y1|]. cbn in N. inversion N; subst. destruct Y1 as [->|Y1].
    - apply H1, in_or_app; right; exact Y2.
    - exact (IHh H2 y Y1 Y2). }
  assert (C : forall b m, nth_error ll b = Some m -> forall c, nth_error m c = Some x -> In x (concat ll)).
  { intros b m E c Ec. apply in_concat. exists m. split; eapply nth_error_In; eauto. }
  destruct a as [|a], a' as [|a']; cbn in Ea, Ea'.
  - injection Ea as <-. injection Ea' as <-. split; [reflexivity|]. assert (Nh : NoDup h).
    { clear - N. induction h as [|b h IHh]; [constructor|]. cbn in N. inversion N; subst. constructor; [|exact (IHh H2)].
      intros X. apply H1, in_or_app. left; exact X. }
   
    eapply NoDup_nth_error; [exact Nh| |congruence]. apply nth_error_Some. congruence.
  - injection Ea as <-. destruct (D x); [eapply nth_error_In; exact Ei|exact (C _ _ Ea' _ Ei')].
  - injection Ea' as <-. destruct (D x); [eapply nth_error_In; exact Ei'|exact (C _ _ Ea _ Ei)].
  - destruct (IH N2 a a' l l' i i' x Ea Ea' Ei Ei') as [-> ->]. split; reflexivity.
Qed.

Lemma reb_pos k reb p p' i i' r r' : NoDup (map im_node (all_reb k reb)) -> (p < k)%nat -> (p' < k)%nat ->
  nth_error (reb p) i = Some r -> nth_error (reb p') i' = Some r' -> im_node r = im_node r' -> p = p' /\ i = i'.
Proof.
  intros N Hp Hp' E E' En. unfold all_reb in N. rewrite concat_map, map_map in N.
  assert (S : forall q, (q < k)%nat -> nth_error (map (fun x => map im_node (reb x)) (seq 0 k)) q = Some (map im_node (reb q))).
  { intros q Hq. erewrite map_nth_error; [reflexivity|]. rewrite nth_error_nth' with (d := 0%nat) by (rewrite seq_length; exact Hq). rewrite seq_nth by exact Hq. reflexivity. }
  eapply concat_pos; [exact N|apply S, Hp|apply S, Hp'|exact (map_nth_error im_node _ _ E)|rewrite En; exact (map_nth_error im_node _ _ E')].
Qed.
Lemma in_all_reb k reb m : In m (all_reb k reb) <-> exists p, (p < k)%nat /\ In m (reb p).
Proof.
  unfold all_reb. rewrite in_concat. split.
  - intros (l & Hl & Hm). apply in_map_iff in Hl. destruct Hl as (p & <- & Hp). apply in_seq in Hp. exists p. split; [lia|exact Hm].
  - intros (p & Hp & Hm). exists (reb p). split; [apply in_map, in_seq; lia|exact Hm].
Qed.

Lemma nth_view l i : nth_error (map view1 l) i = match nth_error l i with Some m => Some (view1 m) | None => None end.
Proof. revert i; induction l as [|a l IH]; intros [|i]; cbn; auto. Qed.
Lemma moved_idx_move t u j : moved_idx t u = Some j -> exists m f, nth_error (i_order t) j = Some m /\ im_from m = Some f /\
  i_of t u = i_first t + Z.of_nat j /\ move_of (view t) u = Some (i_of t u, mkRM (im_node m) f (im_to m)).
Proof.
  unfold moved_idx, move_of, numMoves, view. cbn [t_of t_first t_order]. rewrite map_length. destruct (_ && _) eqn:B; [|discriminate].
  rewrite nth_view. destruct (nth_error (i_order t) _) as [m|] eqn:E; [|discriminate]. unfold valid, view1. destruct (im_from m) as [f|] eqn:Ef; [|discriminate].
  intros X. injection X as <-. exists m, f. split; [exact E|]. split; [exact Ef|]. split; [lia|reflexivity].
Qed.
Lemma moved_idx_none t u : moved_idx t u = None -> move_of (view t) u = None.
Proof.
  unfold moved_idx, move_of, numMoves, view. cbn [t_of t_first t_order]. rewrite map_length. destruct (_ && _) eqn:B; [|reflexivity].
  rewrite nth_view. destruct (nth_error (i_order t) _) as [m|] eqn:E; [|reflexivity]. unfold valid, view1. destruct (im_from m) as [f|] eqn:Ef; [discriminate|reflexivity].
Qed.

Section Merge.
Variables (H : hypergraph) (k : nat) (P0 : partition) (t : itr) (reb : nat -> list imove).
Hypothesis (RO : round_ok H k P0 (view t)) (OF : of_ok t) (RB : reb_ok H k (prefix P0 (view t) (numMoves (view t))) reb).
Notation P1 := (prefix P0 (view t) (numMoves (view t))).

(** What the loops do to an entry of the rebalancing moves, to the move order and to moveOfNode. *)
Definition mg (r : imove) : imove := match move_of (view t) (im_node r) with
  | Some (_, fm) => if Nat.eqb (r_from fm) (im_to r) then invalidate r else mkIM (im_node r) (Some (r_from fm)) (im_to r)
  | None => r end.
Definition at_pos (u : nat) (pi : nat * nat) : bool := match nth_error (reb (fst pi)) (snd pi) with Some r => Nat.eqb (im_node r) u | None => false end.
Definition hit (D : list (nat * nat)) (u : nat) : bool := existsb (at_pos u) D.
Definition inb (D : list (nat * nat)) (p i : nat) : bool := existsb (fun q => Nat.eqb (fst q) p && Nat.eqb (snd q) i) D.
Definition ord (D : list (nat * nat)) : list imove := map (fun m => if hit D (im_node m) then invalidate m else m) (i_order t).

Record minv (D : list (nat * nat)) (st : itr * (nat -> list imove)) : Prop := {
  mi_first : i_first (fst st) = i_first t;
  mi_order : i_order (fst st) = ord D;
  mi_reb : forall p i, nth_error (snd st p) i = match nth_error (reb p) i with Some r => Some (if inb D p i then mg r else r) | None => None end;
  mi_of : forall u, i_of (fst st) u = if existsb (fun pi => at_pos u pi && match nth_error (reb (fst pi)) (snd pi) with Some r => negb (valid (mg r)) | None => false end) D then 0 else i_of t u
}.

Lemma hit_in D u : hit D u = true <-> exists p i r, In (p, i) D /\ nth_error (reb p) i = Some r /\ im_node r = u.
Proof using.
  unfold hit. rewrite existsb_exists. split.
  - intros ([p i] & I & E). unfold at_pos in E. cbn in E. destruct (nth_error (reb p) i) as [r|] eqn:En; [|discriminate].
    apply Nat.eqb_eq in E. exists p, i, r. auto.
  - intros (p & i & r & I & En & E). exists (p, i). split; [exact I|]. unfold at_pos. cbn. rewrite En. apply Nat.eqb_eq, E.
Qed.
Lemma inb_in D p i : inb D p i = true <-> In (p, i) D.
Proof using.
  unfold inb. rewrite existsb_exists. split.
  - intros ([p' i'] & I & E). cbn in E. apply andb_true_iff in E. destruct E as [E1 E2]. apply Nat.eqb_eq in E1, E2. subst. exact I.
  - intros I. exists (p, i). split; [exact I|]. cbn. rewrite !Nat.eqb_refl. reflexivity.
Qed.
Lemma reb_in p i r : (p < k)%nat -> nth_error (reb p) i = Some r ->
  In (im_node r) (nodes H) /\ im_from r = Some p /\ P1 (im_node r) = Some p /\ p <> im_to r /\ (im_to r < k)%nat.
Proof using RB. intros Hp E. exact (rb_valid H k _ reb RB p r Hp (nth_error_In _ _ E)). Qed.

Lemma order_valid j m f : nth_error (i_order t) j = Some m -> im_from m = Some f ->
  In (im_node m) (nodes H) /\ P0 (im_node m) = Some f /\ f <> im_to m /\ (im_to m < k)%nat /\ i_of t (im_node m) = i_first t + Z.of_nat j.
Proof using RO.
  intros E Ef. assert (X : nth_error (t_order (view t)) j = Some (Some (mkRM (im_node m) f (im_to m)))).
  { cbn [view t_order]. rewrite nth_view, E. unfold view1. rewrite Ef. reflexivity. }
  exact (ro_valid H k P0 (view t) RO j _ X).
Qed.
Lemma order_unique j j' m m' : nth_error (i_order t) j = Some m -> valid m = true -> nth_error (i_order t) j' = Some m' -> valid m' = true ->
  im_node m = im_node m' -> j = j'.
Proof using RO.
  unfold valid. intros E V E' V' En. destruct (im_from m) as [f|] eqn:F; [|discriminate]. destruct (im_from m') as [f'|] eqn:F'; [|discriminate].
  destruct (order_valid j m f E F) as (_ & _ & _ & _ & X). destruct (order_valid j' m' f' E' F') as (_ & _ & _ & _ & X'). rewrite En in X. lia.
Qed.
Lemma moved_idx_valid j m : nth_error (i_order t) j = Some m -> valid m = true -> moved_idx t (im_node m) = Some j.
Proof using RO.
  intros E V. pose proof V as V'. unfold valid in V. destruct (im_from m) as [f|] eqn:F; [|discriminate].
  destruct (order_valid j m f E F) as (_ & _ & _ & _ & X). assert (j < length (i_order t))%nat by (apply nth_error_Some; congruence).
  unfold moved_idx. rewrite X. replace (_ <=? _) with true by lia. replace (_ <? _) with true by lia. cbn [andb].
  replace (Z.to_nat _) with j by lia. rewrite E, V'. reflexivity.
Qed.

Lemma inv_invalid m : valid m = false -> invalidate m = m.
Proof using. unfold valid, invalidate. destruct m as [a [b|] c]; [discriminate|reflexivity]. Qed.

Lemma merge_step D st p i : minv D st -> (p < k)%nat -> (i < length (reb p))%nat -> ~ In (p, i) D -> (forall q j, In (q, j) D -> (q < k)%nat) ->
  minv ((p, i) :: D) (merge1 st (p, i)).
Proof using RO OF RB.
  intros [M1 M2 M3 M4] Hp Hi Nin Dk. destruct st as [t' reb']. cbn [fst snd] in *.
  destruct (nth_error (reb p) i) as [r|] eqn:Er; [|apply nth_error_None in Er; lia].
  assert (Nb : inb D p i = false) by (apply not_true_iff_false; rewrite inb_in; exact Nin).
  assert (Er' : nth_error (reb' p) i = Some r) by (rewrite M3, Er, Nb; reflexivity).
  destruct (reb_in p i r Hp Er) as (R1 & R2 & R3 & R4 & R5).
  set (u := im_node r) in *.
  assert (Hu : hit D u = false).
  { apply not_true_iff_false. rewrite hit_in. intros (q & j & r' & I & En & Eu).
    destruct (reb_pos k reb q p j i r' r (rb_nodup H k _ reb RB) (Dk q j I) Hp En Er Eu) as [-> ->]. exact (Nin I). }
  assert (Ofu : i_of t' u = i_of t u).
  { rewrite M4. match goal with |- (if ?b then _ else _) = _ => assert (X : b = false) end; [|rewrite X; reflexivity].
    apply not_true_iff_false. intros X. apply existsb_exists in X. destruct X as (q & I & X). apply andb_true_iff in X. destruct X as [X _].
    assert (hit D u = true) by (apply existsb_exists; exists q; split; assumption). congruence. }
  assert (Lo : length (i_order t') = length (i_order t)) by (rewrite M2; apply map_length).
  assert (NthO : forall j m, nth_error (i_order t) j = Some m -> nth_error (i_order t') j = Some (if hit D (im_node m) then invalidate m else m)).
  { intros j m E. rewrite M2. unfold ord. erewrite map_nth_error; [reflexivity|exact E]. }
  assert (Mv : moved_idx t' u = moved_idx t u).
  { unfold moved_idx. rewrite Ofu, M1, Lo. destruct (_ && _) eqn:B; [|reflexivity].
    destruct (OF u ltac:(lia)) as (j & m & O1 & O2 & O3). replace (Z.to_nat (i_of t u - i_first t)) with j by lia.
    rewrite (NthO j m O2), O2, O3, Hu. reflexivity. }
  assert (Vr : valid r = true) by (unfold valid; rewrite R2; reflexivity).
  assert (HH : forall v, hit ((p, i) :: D) v = Nat.eqb u v || hit D v).
  { intros v. unfold hit. cbn [existsb]. unfold at_pos at 1. cbn [fst snd]. rewrite Er. reflexivity. }
  assert (Inb : forall q j, inb ((p, i) :: D) q j = (Nat.eqb p q && Nat.eqb i j) || inb D q j) by reflexivity.
  unfold merge1. rewrite Er', Vr. fold u. rewrite Mv. destruct (moved_idx t u) as [j|] eqn:Ej.
  - destruct (moved_idx_move t u j Ej) as (fm & f & E1 & E2 & E3 & E4).
    assert (Enf : im_node fm = u).
    { pose proof (ro_node H k P0 (view t) RO u _ _ E4) as X. exact X. }
    assert (Vf : valid fm = true) by (unfold valid; rewrite E2; reflexivity).
    rewrite (NthO j fm E1), Enf, Hu, E2.
    assert (Emg : mg r = if Nat.eqb f (im_to r) then invalidate r else mkIM u (Some f) (im_to r)) by (unfold mg; fold u; rewrite E4; reflexivity).
    assert (Oeq : set_nth (i_order t') j (invalidate fm) = ord ((p, i) :: D)).
    { apply nth_error_ext. intros j'. rewrite nth_set. unfold ord. rewrite nth_error_map.
      destruct (Nat.eqb_spec j' j) as [->|Nj].
      - rewrite (NthO j fm E1), E1. cbn [option_map]. rewrite HH, Enf, Nat.eqb_refl. reflexivity.
      - destruct (nth_error (i_order t) j') as [m|] eqn:Em.
        + rewrite (NthO j' m Em). cbn [option_map]. rewrite HH. destruct (Nat.eqb_spec u (im_node m)) as [Eu|Neu]; cbn [orb]; [|reflexivity].
          rewrite <- Eu, Hu. destruct (valid m) eqn:Vm; [|rewrite (inv_invalid m Vm); reflexivity].
          exfalso. apply Nj, (order_unique j' j m fm Em Vm E1 Vf). congruence.
        + cbn [option_map]. apply nth_error_None. rewrite Lo. apply nth_error_None. exact Em. }
    assert (Req : forall x, x = mg r -> forall q a, nth_error (upd reb' p (set_nth (reb' p) i x) q) a =
        match nth_error (reb q) a with Some r => Some (if inb ((p, i) :: D) q a then mg r else r) | None => None end).
    { intros x Ex q a. rewrite Inb. unfold upd. destruct (Nat.eqb_spec q p) as [->|Nq].
      - rewrite nth_set, Er', Nat.eqb_refl. destruct (Nat.eqb_spec a i) as [->|Na].
        + rewrite Er, Nat.eqb_refl. cbn. congruence.
        + rewrite M3. replace (Nat.eqb i a) with false by (symmetry; apply Nat.eqb_neq; congruence). reflexivity.
      - rewrite M3. replace (Nat.eqb p q) with false by (symmetry; apply Nat.eqb_neq; congruence). reflexivity. }
    destruct (Nat.eqb_spec f (im_to r)) as [Ef|Nf]; constructor; cbn [fst snd i_first i_order i_of]; auto.
    + intros v. cbn [existsb]. unfold at_pos at 1. cbn [fst snd]. rewrite Er, Emg. cbn [invalidate valid im_from negb].
      rewrite andb_true_r. unfold upd. fold u. rewrite (Nat.eqb_sym u v). destruct (Nat.eqb_spec v u) as [->|]; cbn [orb]; [reflexivity|apply M4].
    + intros v. cbn [existsb]. unfold at_pos at 1. cbn [fst snd]. rewrite Er, Emg. cbn [valid im_from negb]. rewrite andb_false_r. cbn [orb]. apply M4.
  - pose proof (moved_idx_none t u Ej) as Emv.
    assert (Emg : mg r = r) by (unfold mg; fold u; rewrite Emv; reflexivity).
    constructor; cbn [fst snd]; auto.
    + rewrite M2. unfold ord. apply map_ext_in. intros m Hm. rewrite HH. destruct (Nat.eqb_spec u (im_node m)) as [Eu|Neu]; cbn [orb]; [|reflexivity].
      rewrite <- Eu, Hu. destruct (valid m) eqn:Vm; [|rewrite (inv_invalid m Vm); reflexivity].
      apply In_nth_error in Hm. destruct Hm as [j Em]. pose proof (moved_idx_valid j m Em Vm). congruence.
    + intros q a. rewrite M3, Inb. destruct (Nat.eqb_spec p q) as [<-|]; [|reflexivity]. destruct (Nat.eqb_spec i a) as [<-|]; [|reflexivity].
      rewrite Er, Nb, Emg. reflexivity.
    + intros v. cbn [existsb]. unfold at_pos at 1. cbn [fst snd]. rewrite Er, Emg, Vr. cbn [negb]. rewrite andb_false_r. cbn [orb]. apply M4.
Qed.

Lemma merge_fold sched : forall D st, minv D st -> NoDup sched -> (forall p i, In (p, i) sched -> (p < k)%nat /\ (i < length (reb p))%nat) ->
  (forall x, In x sched -> ~ In x D) -> (forall q j, In (q, j) D -> (q < k)%nat) ->
  minv (rev sched ++ D) (fold_left merge1 sched st).
Proof using RO OF RB.
  induction sched as [|[p i] l IH]; intros D st M N R Nd Dk; [exact M|]. inversion N; subst. cbn [fold_left rev]. rewrite <- app_assoc. cbn [app].
  destruct (R p i (or_introl eq_refl)) as [R1 R2]. apply IH; auto.
  - apply merge_step; auto. apply Nd. left; reflexivity.
  - intros q j I. apply R. right; exact I.
  - intros x I [<-|J]; [exact (H2 I)|]. exact (Nd x (or_intror I) J).
  - intros q j [E|J]; [injection E as <- <-; exact R1|exact (Dk q j J)].
Qed.

Lemma merge_result sched : merge_sched k reb sched -> exists D, minv D (merge t reb sched) /\
  (forall u, hit D u = true <-> reb_node k reb u) /\ (forall p i, inb D p i = true <-> (p < k /\ i < length (reb p))%nat).
Proof using RO OF RB.
  intros [N C]. exists (rev sched ++ []). split; [|rewrite app_nil_r; split].
  - apply merge_fold; [|exact N|intros p i I; apply C, I|intros x _ X; exact X|intros q j X; destruct X].
    constructor; cbn [fst snd existsb]; auto.
      * unfold ord. rewrite <- (map_id (i_order t)) at 1. apply map_ext. reflexivity.
      * intros p i. destruct (nth_error (reb p) i); reflexivity.
  - intros u. rewrite hit_in. unfold reb_node. rewrite in_map_iff. split.
    + intros (p & i & r & I & En & E). rewrite <- in_rev in I. apply C in I. exists r. split; [exact E|]. apply in_all_reb. exists p. split; [tauto|eapply nth_error_In; exact En].
    + intros (r & E & I). apply in_all_reb in I. destruct I as (p & Hp & I). apply In_nth_error in I. destruct I as [i En].
      exists p, i, r. split; [|auto]. rewrite <- in_rev. apply C. split; [exact Hp|]. apply nth_error_Some. congruence.
  - intros p i. rewrite inb_in, <- in_rev. apply C.
Qed.
End Merge.

(** ---- the new sequence ---- *)
(** The moves of a list executed one after another; invalid entries do nothing. *)
Definition vm (l : list imove) : list (nat * nat) := flat_map (fun m => if valid m then [(im_node m, im_to m)] else []) l.
Lemma vm_app a b : vm (a ++ b) = vm a ++ vm b.
Proof. apply flat_map_app. Qed.
Lemma vm_view l : valid_moves (map view1 l) = vm l.
Proof.
  unfold valid_moves, vm. induction l as [|m l IH]; [reflexivity|]. cbn [map flat_map]. rewrite IH. f_equal.
  unfold view1, valid. destruct (im_from m); reflexivity.
Qed.
Lemma vm_fst l u : In u (map fst (vm l)) -> In u (map im_node l).
Proof.
  unfold vm. rewrite in_map_iff. intros ([a b] & <- & I). apply in_flat_map in I. destruct I as (m & Hm & I).
  destruct (valid m); [|destruct I]. destruct I as [E|[]]. injection E as <- <-. exact (in_map im_node _ _ Hm).
Qed.
Lemma in_vm l m : In m l -> valid m = true -> In (im_node m, im_to m) (vm l).
Proof. intros I V. apply in_flat_map. exists m. rewrite V. split; [exact I|left; reflexivity]. Qed.
Lemma moves_out l : forall P v, ~ In v (map fst l) -> moves P l v = P v.
Proof.
  induction l as [|[a b] l IH]; intros P v N; [reflexivity|]. cbn [moves fold_left fst snd]. fold (moves (move P a b) l). rewrite IH.
  - apply upd_other. intros ->. apply N. left; reflexivity.
  - intros X. apply N. right; exact X.
Qed.
Lemma moves_in l : forall P v b, NoDup (map fst l) -> In (v, b) l -> moves P l v = Some b.
Proof.
  induction l as [|[a c] l IH]; intros P v b N I; [destruct I|]. cbn [map fst] in N. inversion N; subst. cbn [moves fold_left fst snd]. fold (moves (move P a c) l).
  destruct I as [E|I].
  - injection E as -> ->. rewrite moves_out by assumption. apply upd_same.
  - apply IH; assumption.
Qed.
Lemma vm_nodup l : NoDup (map im_node l) -> NoDup (map fst (vm l)).
Proof.
  induction l as [|m l IH]; cbn [map vm flat_map]; intros N; [constructor|]. inversion N; subst. fold (vm l).
  destruct (valid m); cbn [app map fst]; [|exact (IH H2)]. constructor; [|exact (IH H2)]. intros X. apply H1, vm_fst, X.
Qed.

Lemma skipn_nth {A} (l : list A) : forall i x, nth_error l i = Some x -> skipn i l = x :: skipn (S i) l.
Proof. induction l as [|a l IH]; intros [|i] x E; cbn in E; try discriminate; [injection E as ->; reflexivity|]. cbn [skipn]. exact (IH i x E). Qed.
Lemma concat_skip k (reb : nat -> list imove) (idx : nat -> nat) b m : (b < k)%nat -> nth_error (reb b) (idx b) = Some m ->
  Permutation (concat (map (fun x => skipn (idx x) (reb x)) (seq 0 k))) (m :: concat (map (fun x => skipn (upd idx b (S (idx b)) x) (reb x)) (seq 0 k))).
Proof.
  intros Hb E. assert (Hin : In b (seq 0 k)) by (apply in_seq; lia). assert (N : NoDup (seq 0 k)) by apply seq_NoDup.
  revert Hin N. induction (seq 0 k) as [|a l IH]; intros Hin N; [destruct Hin|]. inversion N as [|? ? N1 N2]; subst. cbn [map concat].
  destruct (Nat.eq_dec a b) as [->|Ne].
  - rewrite upd_same, (skipn_nth _ _ _ E). cbn [app]. apply perm_skip, Permutation_app_head.
    erewrite map_ext_in; [reflexivity|]. intros x Hx. cbv beta. rewrite upd_other; [reflexivity|]. intros ->. exact (N1 Hx).
  - destruct Hin as [->|Hin]; [congruence|]. rewrite upd_other by exact Ne. specialize (IH Hin N2).
    etransitivity; [apply Permutation_app_head; exact IH|]. symmetry. apply Permutation_middle.
Qed.

Local Lemma sum_cons x l : list_sum (x :: l) = (x + list_sum l)%nat.
Proof. reflexivity. Qed.
Lemma remaining_take w k (reb : nat -> list imove) st b m : (b < k)%nat -> nth_error (reb b) (s_idx st b) = Some m ->
  (remaining k reb (emit w (mkS (s_out st) (s_w st) (upd (s_idx st) b (S (s_idx st b)))) m) < remaining k reb st)%nat.
Proof.
  intros Hb E. assert (Hlt : (s_idx st b < length (reb b))%nat) by (apply nth_error_Some; congruence).
  unfold remaining. cbn [emit s_idx]. assert (Hin : In b (seq 0 k)) by (apply in_seq; lia). clear Hb.
  induction (seq 0 k) as [|a l IH]; [destruct Hin|]. cbn [map]. rewrite !sum_cons.
  assert (M : (list_sum (map (fun x => (length (reb x) - upd (s_idx st) b (S (s_idx st b)) x)%nat) l) <= list_sum (map (fun x => (length (reb x) - s_idx st x)%nat) l))%nat).
  { clear - l. induction l as [|x l IHl]; [cbn; lia|]. cbn [map]. rewrite !sum_cons. assert (X : (s_idx st x <= upd (s_idx st) b (S (s_idx st b)) x)%nat) by (unfold upd; destruct (Nat.eqb_spec x b) as [->|]; lia). lia. }
  destruct (Nat.eq_dec a b) as [->|Ne]; [rewrite upd_same; lia|]. destruct Hin as [->|Hin]; [congruence|]. specialize (IH Hin). rewrite upd_other by exact Ne. lia.
Qed.

Lemma filter_none {A} (f : A -> bool) l : (forall x, In x l -> f x = false) -> filter f l = [].
Proof. induction l as [|a l IH]; intros N; [reflexivity|]. cbn [filter]. rewrite (N a (or_introl eq_refl)). apply IH. intros x X. apply N. right; exact X. Qed.

Section Sequence.
Variables (H : hypergraph) (k : nat) (P0 : partition) (L : nat -> Z) (order : list imove) (reb : nat -> list imove) (orig : nat -> bool).
Notation All := (filter valid order ++ concat (map reb (seq 0 k))).
Hypothesis (WF : wf_hg H) (NWP : forall v, In v (nodes H) -> 0 <= nw H v)
  (ND : NoDup (map im_node All))
  (AV : forall m f, In m All -> im_from m = Some f -> In (im_node m) (nodes H) /\ P0 (im_node m) = Some f /\ f <> im_to m /\ (f < k)%nat /\ (im_to m < k)%nat)
  (NO : forall p m, (p < k)%nat -> In m (reb p) -> orig (im_node m) = false).
Notation W l p := (block_weight H (moves P0 (vm l)) p).

Definition covered (l : list imove) : Prop :=
  forall p, (p < k)%nat -> L p < W l p -> forall r, In r (reb p) -> In (im_node r) (map im_node l).
Definition immediate (l : list imove) : Prop := forall a m b, l = a ++ m :: b -> valid m = true -> orig (im_node m) = true -> covered a.

Record sinv (todo : list imove) (st : ist) : Prop := {
  sv_perm : Permutation (s_out st ++ todo ++ tail_moves k reb st) All;
  sv_idx : forall b, (b < k)%nat -> (s_idx st b <= length (reb b))%nat;
  sv_w : forall p, (p < k)%nat -> s_w st p = W (s_out st) p;
  sv_incl : forall b, (b < k)%nat -> incl (firstn (s_idx st b) (reb b)) (s_out st);
  sv_imm : immediate (s_out st);
  sv_order : filter (fun m => orig (im_node m)) (s_out st ++ todo) = filter (fun m => orig (im_node m)) (filter valid order)
}.
Definition okp (st : ist) (p : nat) : Prop := s_w st p <= L p \/ s_idx st p = length (reb p).

Lemma emit_weight st m rest p : NoDup (map im_node (s_out st ++ m :: rest)) -> In m All -> (forall q, (q < k)%nat -> s_w st q = W (s_out st) q) -> (p < k)%nat ->
  s_w (emit (nw H) st m) p = W (s_out (emit (nw H) st m)) p.
Proof using L WF NWP ND AV NO.
  intros N Hm Hw Hp. cbn [emit s_w s_out]. rewrite vm_app, moves_app. cbn [vm flat_map].
  destruct (im_from m) as [f|] eqn:Ef.
  - unfold valid. rewrite Ef. cbn [app moves fold_left fst snd]. destruct (AV m f Hm Ef) as (V1 & V2 & V3 & V4 & V5).
    fold (moves P0 (vm (s_out st))).
    rewrite (block_weight_move H _ _ _ p (wf_nodes H WF) V1).
    assert (Eq : moves P0 (vm (s_out st)) (im_node m) = Some f).
    { rewrite moves_out; [exact V2|]. intros X. apply vm_fst in X. rewrite map_app in N. cbn [map] in N.
      apply NoDup_remove_2 in N. apply N, in_or_app. left; exact X. }
    unfold in_block. rewrite Eq. unfold upd.
    destruct (Nat.eqb_spec p (im_to m)) as [E1|E1].
    + subst p. rewrite Nat.eqb_refl. rewrite (proj2 (Nat.eqb_neq (im_to m) f)) by congruence.
      rewrite (proj2 (Nat.eqb_neq f (im_to m))) by congruence. cbn [Z.b2z]. rewrite (Hw _ V5). lia.
    + rewrite (proj2 (Nat.eqb_neq (im_to m) p)) by congruence. destruct (Nat.eqb_spec p f) as [E2|E2].
      * subst p. rewrite Nat.eqb_refl. cbn [Z.b2z]. rewrite (Hw _ V4). lia.
      * rewrite (proj2 (Nat.eqb_neq f p)) by congruence. cbn [Z.b2z]. rewrite (Hw _ Hp). lia.
  - unfold valid. rewrite Ef. cbn [app moves fold_left]. apply Hw, Hp.
Qed.

Lemma imm_snoc l m : immediate l -> (valid m = true -> orig (im_node m) = true -> covered l) -> immediate (l ++ [m]).
Proof using L WF NWP ND AV NO.
  intros I C a x b E V O. assert (Db : b = [] \/ b <> []) by (destruct b; [left; reflexivity|right; discriminate]). destruct Db as [->|Nb].
  - apply app_inj_tail in E. destruct E as [<- <-]. exact (C V O).
  - destruct (exists_last Nb) as (b' & y & ->). rewrite app_comm_cons, app_assoc in E. apply app_inj_tail in E. destruct E as [-> _].
    exact (I a x b' eq_refl V O).
Qed.

(** Taking the next rebalancing move of block [b]. *)
Lemma take_ok todo st b m : (b < k)%nat -> sinv todo st -> nth_error (reb b) (s_idx st b) = Some m ->
  sinv todo (emit (nw H) (mkS (s_out st) (s_w st) (upd (s_idx st) b (S (s_idx st b)))) m).
Proof using L WF NWP ND AV NO.
  intros Hb [S1 S2 S3 S4 S5 S6] E. set (st1 := mkS _ _ _).
  assert (Hlt : (s_idx st b < length (reb b))%nat) by (apply nth_error_Some; congruence).
  assert (Perm : Permutation ((s_out st ++ [m]) ++ todo ++ tail_moves k reb (emit (nw H) st1 m)) All).
  { etransitivity; [|exact S1]. rewrite <- app_assoc. apply Permutation_app_head. cbn [app].
    etransitivity; [|apply Permutation_app_head; symmetry; exact (concat_skip k reb (s_idx st) b m Hb E)].
    apply Permutation_middle. }
  assert (N1 : NoDup (map im_node (s_out st1 ++ m :: todo ++ tail_moves k reb (emit (nw H) st1 m)))).
  { eapply Permutation_NoDup; [|exact ND]. apply Permutation_map. symmetry. rewrite <- app_assoc in Perm. exact Perm. }
  assert (Hm : In m All).
  { eapply Permutation_in; [exact Perm|]. apply in_or_app. left. apply in_or_app. right. left; reflexivity. }
  constructor.
  - exact Perm.
  - intros x Hx. cbn [emit s_idx st1]. unfold upd. destruct (Nat.eqb_spec x b) as [->|]; [lia|auto].
  - intros p Hp. apply (emit_weight st1 m _ p N1 Hm); auto.
  - intros x Hx. cbn [emit s_idx s_out st1]. unfold upd. destruct (Nat.eqb_spec x b) as [->|].
    + rewrite (firstn_snoc _ _ _ E). apply incl_app; [apply incl_appl, S4, Hx|apply incl_appr, incl_refl].
    + apply incl_appl, S4, Hx.
  - cbn [emit s_out st1]. apply imm_snoc; [exact S5|]. intros _ O. rewrite (NO b m Hb (nth_error_In _ _ E)) in O. discriminate.
  - rewrite <- S6. cbn [emit s_out st1]. rewrite <- app_assoc. cbn [app]. rewrite !filter_app. cbn [filter]. rewrite (NO b m Hb (nth_error_In _ _ E)). reflexivity.
Qed.

Lemma emit_mono st m p : In m All -> (p <> im_to m \/ valid m = false) -> s_w (emit (nw H) st m) p <= s_w st p.
Proof using L WF NWP ND AV NO.
  intros Hm Hp. cbn [emit s_w]. destruct (im_from m) as [f|] eqn:Ef; [|lia]. destruct Hp as [Hp|Hp]; [|unfold valid in Hp; rewrite Ef in Hp; discriminate].
  destruct (AV m f Hm Ef) as (V1 & _). specialize (NWP _ V1). rewrite (upd_other _ (im_to m) p) by exact Hp. unfold upd.
  destruct (Nat.eqb p f) eqn:E; [apply Nat.eqb_eq in E; subst; lia|lia].
Qed.

Lemma balance_ok todo : forall fuel b st, (b < k)%nat -> sinv todo st -> (remaining k reb st < fuel)%nat ->
  exists st', balance (nw H) L reb fuel b st = Some st' /\ sinv todo st' /\ (remaining k reb st' <= remaining k reb st)%nat /\
    (forall p, (p < k)%nat -> okp st p -> okp st' p) /\ okp st' b.
Proof using L WF NWP ND AV NO.
  induction fuel as [|fuel IH]; intros b st Hb S Hf; [lia|]. cbn [balance].
  destruct (overloaded L st b) eqn:Ov; unfold overloaded in Ov.
  2: { exists st. repeat (split; [solve [auto]|]). left. lia. }
  destruct (nth_error (reb b) (s_idx st b)) as [m|] eqn:E.
  2: { exists st. repeat (split; [solve [auto]|]). right. apply nth_error_None in E. pose proof (sv_idx _ _ S b Hb). lia. }
  pose proof (take_ok todo st b m Hb S E) as S1. pose proof (remaining_take (nw H) k reb st b m Hb E) as R1.
  set (st1 := emit _ _ m) in *.
  assert (Hm : In m All).
  { apply in_or_app. right. apply in_concat. exists (reb b). split; [apply in_map, in_seq; lia|eapply nth_error_In; exact E]. }
  assert (K1 : forall p, (p < k)%nat -> (p <> im_to m \/ valid m = false) -> okp st p -> okp st1 p).
  { intros p Hp Hc [O|O].
    - left. etransitivity; [|exact O]. exact (emit_mono (mkS (s_out st) (s_w st) (upd (s_idx st) b (Datatypes.S (s_idx st b)))) m p Hm Hc).
    - right. unfold st1. cbn [emit s_idx]. rewrite upd_other; [exact O|]. intros ->. assert (nth_error (reb b) (s_idx st b) = None) by (apply nth_error_None; lia). congruence. }
  destruct (valid m) eqn:V; cbn [andb].
  - assert (Ht : (im_to m < k)%nat). { unfold valid in V. destruct (im_from m) as [f|] eqn:Ef; [|discriminate]. apply (AV m f Hm Ef). }
    destruct (overloaded L st1 (im_to m)) eqn:O2; unfold overloaded in O2.
    + destruct (IH (im_to m) st1 Ht S1 ltac:(lia)) as (st2 & E2 & S2 & R2 & K2 & B2). rewrite E2.
      destruct (IH b st2 Hb S2 ltac:(lia)) as (st3 & E3 & S3 & R3 & K3 & B3). exists st3. split; [exact E3|]. split; [exact S3|]. split; [lia|]. split; [|exact B3].
      intros p Hp O. apply K3; [exact Hp|]. destruct (Nat.eq_dec p (im_to m)) as [->|Ne]; [exact B2|]. apply K2; [exact Hp|]. apply K1; auto.
    + destruct (IH b st1 Hb S1 ltac:(lia)) as (st3 & E3 & S3 & R3 & K3 & B3). exists st3. split; [exact E3|]. split; [exact S3|]. split; [lia|]. split; [|exact B3].
      intros p Hp O. apply K3; [exact Hp|]. destruct (Nat.eq_dec p (im_to m)) as [->|Ne]; [left; lia|]. apply K1; auto.
  - destruct (IH b st1 Hb S1 ltac:(lia)) as (st3 & E3 & S3 & R3 & K3 & B3). exists st3. split; [exact E3|]. split; [exact S3|]. split; [lia|]. split; [|exact B3].
    intros p Hp O. apply K3; [exact Hp|]. apply K1; auto.
Qed.

Lemma insert_ok todo b st : (b < k)%nat -> sinv todo st -> exists st', insert_part (nw H) k L reb b st = Some st' /\ sinv todo st' /\
    (forall p, (p < k)%nat -> okp st p -> okp st' p) /\ okp st' b.
Proof using L WF NWP ND AV NO.
  intros Hb S. unfold insert_part. destruct (overloaded L st b) eqn:Ov; unfold overloaded in Ov.
  - destruct (balance_ok todo (Datatypes.S (remaining k reb st)) b st Hb S ltac:(lia)) as (st' & E & S' & _ & K & B). exists st'. auto.
  - exists st. repeat (split; [solve [auto]|]). left. lia.
Qed.

Lemma parts_ok todo : forall l st, (forall b, In b l -> (b < k)%nat) -> sinv todo st -> exists st', seq_parts (nw H) k L reb l st = Some st' /\ sinv todo st' /\
    (forall p, (p < k)%nat -> okp st p -> okp st' p) /\ (forall p, In p l -> okp st' p).
Proof using L WF NWP ND AV NO.
  induction l as [|b l IH]; intros st Hl S; cbn [seq_parts].
  - exists st. repeat (split; [solve [auto]|]). intros p [].
  - destruct (insert_ok todo b st (Hl b (or_introl eq_refl)) S) as (st1 & E1 & S1 & K1 & B1). rewrite E1.
    destruct (IH st1 (fun x X => Hl x (or_intror X)) S1) as (st2 & E2 & S2 & K2 & B2). exists st2. split; [exact E2|]. split; [exact S2|]. split; [auto|].
    intros p [<-|X]; [apply K2; auto; apply Hl; left; reflexivity|auto].
Qed.

Lemma covered_ok todo st : sinv todo st -> (forall p, (p < k)%nat -> okp st p) -> covered (s_out st).
Proof using L WF NWP ND AV NO.
  intros S O p Hp Hw r Hr. destruct (O p Hp) as [X|X].
  - rewrite (sv_w _ _ S p Hp) in X. lia.
  - apply in_map. apply (sv_incl _ _ S p Hp). rewrite X, firstn_all. exact Hr.
Qed.

Lemma moves_ok : forall l st of, sinv (filter valid l) st -> incl (filter valid l) All -> (forall p, (p < k)%nat -> okp st p) ->
  exists st' of', seq_moves (nw H) k L reb l (st, of) = Some (st', of') /\ sinv [] st' /\ (forall p, (p < k)%nat -> okp st' p) /\
    (forall m, In m l -> valid m = false -> of' (im_node m) = 0) /\ (forall u, of' u = of u \/ of' u = 0).
Proof using L WF NWP ND AV NO.
  induction l as [|m l IH]; intros st of S I O; cbn [seq_moves].
  - exists st, of. repeat (split; [solve [auto]|]). split; [intros m []|]. auto.
  - unfold seq1. cbn [fst snd]. destruct (valid m) eqn:V; cbn [filter] in S, I; rewrite V in S, I.
    + assert (Hm : In m All) by (apply I; left; reflexivity).
      assert (S1 : sinv (filter valid l) (emit (nw H) st m)).
      { destruct S as [S1 S2 S3 S4 S5 S6].
        assert (N1 : NoDup (map im_node (s_out st ++ m :: filter valid l ++ tail_moves k reb st))).
        { eapply Permutation_NoDup; [|exact ND]. apply Permutation_map. symmetry. exact S1. }
        constructor.
        - cbn [emit s_out]. rewrite <- app_assoc. exact S1.
        - exact S2.
        - intros p Hp. apply (emit_weight st m _ p N1 Hm S3 Hp).
        - intros b Hb. cbn [emit s_out s_idx]. apply incl_appl, S4, Hb.
        - cbn [emit s_out]. apply imm_snoc; [exact S5|]. intros _ _. apply (covered_ok (m :: filter valid l)); [constructor; assumption|exact O].
        - cbn [emit s_out]. rewrite <- app_assoc. exact S6. }
      assert (Ht : (im_to m < k)%nat). { unfold valid in V. destruct (im_from m) as [f|] eqn:Ef; [|discriminate]. apply (AV m f Hm Ef). }
      destruct (insert_ok (filter valid l) (im_to m) (emit (nw H) st m) Ht S1) as (st2 & E2 & S2 & K2 & B2). rewrite E2.
      destruct (IH st2 of S2 (fun x X => I x (or_intror X))) as (st3 & of3 & E3 & S3 & O3 & Z3 & F3).
      { intros p Hp. destruct (Nat.eq_dec p (im_to m)) as [->|Ne]; [exact B2|]. apply K2; [exact Hp|]. destruct (O p Hp) as [X|X]; [left|right; exact X].
        etransitivity; [|exact X]. apply emit_mono; auto. }
      exists st3, of3. repeat (split; [solve [auto]|]). split; [|exact F3]. intros x [<-|X] Vx; [congruence|auto].
    + destruct (IH st (upd of (im_node m) 0) S I O) as (st3 & of3 & E3 & S3 & O3 & Z3 & F3).
      exists st3, of3. repeat (split; [solve [auto]|]). split.
      * intros x [<-|X] Vx; [|auto]. destruct (F3 (im_node m)) as [F|F]; [rewrite F; apply upd_same|exact F].
      * intros u. destruct (F3 u) as [F|F]; [|auto]. rewrite F. unfold upd. destruct (Nat.eqb u (im_node m)); auto.
Qed.

Lemma imm_app l : forall x, immediate l -> (forall m, In m x -> orig (im_node m) = false) -> immediate (l ++ x).
Proof using L WF NWP ND AV NO.
  intros x; revert l; induction x as [|m x IH]; intros l I N; [rewrite app_nil_r; exact I|].
  replace (l ++ m :: x) with ((l ++ [m]) ++ x) by (rewrite <- app_assoc; reflexivity). apply IH.
  - apply imm_snoc; [exact I|]. intros _ O. rewrite (N m (or_introl eq_refl)) in O. discriminate.
  - intros y Y. apply N. right; exact Y.
Qed.

(** The complete second phase. *)
Lemma sequence_ok init of : (forall p, (p < k)%nat -> init p = block_weight H P0 p) ->
  exists st0 st of', seq_parts (nw H) k L reb (seq 0 k) (mkS [] init (fun _ => O)) = Some st0 /\
    seq_moves (nw H) k L reb order (st0, of) = Some (st, of') /\
    Permutation (s_out st ++ tail_moves k reb st) All /\ immediate (s_out st ++ tail_moves k reb st) /\
    filter (fun m => orig (im_node m)) (s_out st ++ tail_moves k reb st) = filter (fun m => orig (im_node m)) (filter valid order) /\
    (forall m, In m order -> valid m = false -> of' (im_node m) = 0) /\ (forall u, of' u = of u \/ of' u = 0).
Proof using L WF NWP ND AV NO.
  intros Hi. assert (S0 : sinv (filter valid order) (mkS [] init (fun _ => O))).
  { constructor; cbn [s_out s_w s_idx].
    - cbn [app]. apply Permutation_app_head. unfold tail_moves. cbn [s_idx]. erewrite map_ext; [reflexivity|]. reflexivity.
    - intros; lia.
    - intros p Hp. rewrite (Hi p Hp). reflexivity.
    - intros b Hb x [].
    - intros a m b E. destruct a; discriminate.
    - reflexivity. }
  destruct (parts_ok _ (seq 0 k) _ ltac:(intros b Hb; apply in_seq in Hb; lia) S0) as (st0 & E0 & S1 & _ & O1).
  destruct (moves_ok order st0 of S1 ltac:(apply incl_appl, incl_refl) ltac:(intros p Hp; apply O1, in_seq; lia)) as (st & of' & E & S & _ & Z0 & F).
  exists st0, st, of'. split; [exact E0|]. split; [exact E|]. split; [exact (sv_perm _ _ S)|]. 
  assert (TL : forall m, In m (tail_moves k reb st) -> orig (im_node m) = false).
  { intros m Hm. unfold tail_moves in Hm. apply in_concat in Hm. destruct Hm as (x & Hx & Hm).
  apply in_map_iff in Hx. destruct Hx as (b & <- & Hb). apply in_seq in Hb. apply (NO b m ltac:(lia)).
  rewrite <- (firstn_skipn (s_idx st b) (reb b)). apply in_or_app. right; exact Hm. }
  split; [apply imm_app; [exact (sv_imm _ _ S)|exact TL]|]. split; [|auto].
  rewrite <- (sv_order _ _ S), app_nil_r, filter_app. rewrite (filter_none _ (tail_moves k reb st) TL), app_nil_r. reflexivity.
Qed.
End Sequence.

Lemma renumber_out l : forall id of u, ~ In u (map fst (vm l)) -> renumber id l of u = of u.
Proof.
  induction l as [|m l IH]; intros id of u N; [reflexivity|]. cbn [renumber]. cbn [vm flat_map] in N. fold (vm l) in N. rewrite map_app in N.
  rewrite IH by (intros X; apply N, in_or_app; right; exact X). destruct (valid m); [|reflexivity]. apply upd_other. intros ->. apply N. left; reflexivity.
Qed.
Lemma renumber_in l : forall id of i m, NoDup (map im_node l) -> nth_error l i = Some m -> valid m = true -> renumber id l of (im_node m) = id + Z.of_nat i.
Proof.
  induction l as [|a l IH]; intros id of [|i] m N E V; cbn in E; try discriminate; cbn [renumber]; cbn [map] in N; inversion N; subst.
  - injection E as <-. rewrite V, renumber_out; [rewrite upd_same; lia|]. intros X. apply H1, vm_fst, X.
  - rewrite (IH _ _ i m H2 E V). lia.
Qed.

Lemma NoDup_app_intro {X} (l1 l2 : list X) : NoDup l1 -> NoDup l2 -> (forall a, In a l1 -> In a l2 -> False) -> NoDup (l1 ++ l2).
Proof.
  induction l1 as [|x l1 IH]; intros N1 N2 D; [exact N2|]. inversion N1; subst. cbn. constructor.
  - intros I. apply in_app_or in I. destruct I as [I|I]; [exact (H1 I)|exact (D x (or_introl eq_refl) I)].
  - apply IH; auto. intros a A B. exact (D a (or_intror A) B).
Qed.
Lemma nodup_map_inj {X Y} (f : X -> Y) l a b : NoDup (map f l) -> In a l -> In b l -> f a = f b -> a = b.
Proof.
  induction l as [|x l IH]; intros N A B E; [destruct A|]. cbn [map] in N. inversion N; subst. destruct A as [->|A], B as [->|B].
  - reflexivity.
  - destruct H1. rewrite E. apply in_map, B.
  - destruct H1. rewrite <- E. apply in_map, A.
  - auto.
Qed.

Section Final.
Variables (H : hypergraph) (k : nat) (P0 : partition) (t : itr) (reb : nat -> list imove) (sched : list (nat * nat)) (L init : nat -> Z).
Hypothesis (WF : wf_hg H) (NWP : forall v, In v (nodes H) -> 0 <= nw H v) (HC : complete H P0 k)
  (RO : round_ok H k P0 (view t)) (OF : of_ok t) (RB : reb_ok H k (prefix P0 (view t) (numMoves (view t))) reb)
  (MS : merge_sched k reb sched) (HI : forall p, (p < k)%nat -> init p = block_weight H P0 p)
  (HN : i_first t + Z.of_nat (length (nodes H)) <= MAXID).
Notation P1 := (prefix P0 (view t) (numMoves (view t))).
Notation mrg := (mg t).
Definition rebb (u : nat) : bool := mem u (map im_node (all_reb k reb)).
Definition order1 : list imove := map (fun m => if rebb (im_node m) then invalidate m else m) (i_order t).

Lemma mg_node r : im_node (mrg r) = im_node r.
Proof using. unfold mg. destruct (move_of (view t) (im_node r)) as [[id fm]|]; [|reflexivity]. destruct (Nat.eqb _ _); reflexivity. Qed.
Lemma mg_to r : im_to (mrg r) = im_to r.
Proof using. unfold mg. destruct (move_of (view t) (im_node r)) as [[id fm]|]; [|reflexivity]. destruct (Nat.eqb _ _); reflexivity. Qed.
Lemma all_mg : all_reb k (fun p => map mrg (reb p)) = map mrg (all_reb k reb).
Proof using. unfold all_reb. rewrite concat_map, map_map. reflexivity. Qed.
Lemma p1_at v : P1 v = match move_of (view t) v with Some (_, m) => Some (r_to m) | None => P0 v end.
Proof using RO L init NWP HI.
  rewrite (prefix_at H k P0 (view t) _ RO) by lia. unfold at_time. destruct (move_of (view t) v) as [[id m]|] eqn:E; [|reflexivity].
  destruct (move_of_inv _ _ _ _ E) as (j & Hj & -> & _). replace (_ <? _) with true by lia. reflexivity.
Qed.
Lemma order1_in m : In m (filter valid order1) <-> In m (i_order t) /\ valid m = true /\ rebb (im_node m) = false.
Proof using.
  rewrite filter_In. unfold order1. rewrite in_map_iff. split.
  - intros [(x & E & I) V]. destruct (rebb (im_node x)) eqn:R.
    + rewrite <- E in V. discriminate V.
    + subst x. auto.
  - intros (I & V & R). split; [|exact V]. exists m. rewrite R. auto.
Qed.
Lemma rebb_spec u : rebb u = true <-> exists r, In r (all_reb k reb) /\ im_node r = u.
Proof using. unfold rebb. rewrite mem_In, in_map_iff. split; intros (r & A & B); exists r; auto. Qed.

Notation All := (filter valid order1 ++ concat (map (fun p => map mrg (reb p)) (seq 0 k))).
Lemma all_in m : In m All <-> (In m (i_order t) /\ valid m = true /\ rebb (im_node m) = false) \/ exists r, In r (all_reb k reb) /\ m = mrg r.
Proof using.
  rewrite in_app_iff, order1_in. fold (all_reb k (fun p => map mrg (reb p))). rewrite all_mg, in_map_iff.
  split; (intros [A|(r & A & B)]; [left; exact A|right; exists r; auto]).
Qed.

Lemma order_nodup : NoDup (map im_node (filter valid (i_order t))).
Proof using RO L init NWP HI.
  assert (G : forall l off, (forall j m f, nth_error l j = Some m -> im_from m = Some f -> i_of t (im_node m) = off + Z.of_nat j) -> NoDup (map im_node (filter valid l))).
  { clear. induction l as [|a l IH]; intros off X; [constructor|]. cbn [filter].
    assert (IH' : NoDup (map im_node (filter valid l))).
    { apply (IH (off + 1)). intros j m f E F. rewrite (X (S j) m f E F). lia. }
    destruct (valid a) eqn:V; [|exact IH']. cbn [map]. constructor; [|exact IH'].
    intros I. apply in_map_iff in I. destruct I as (m & E & I). apply filter_In in I. destruct I as [I Vm]. apply In_nth_error in I. destruct I as [j I].
    unfold valid in V, Vm. destruct (im_from a) as [f|] eqn:Fa; [|discriminate]. destruct (im_from m) as [g|] eqn:Fm; [|discriminate].
    pose proof (X 0%nat a f eq_refl Fa) as X1. pose proof (X (S j) m g I Fm) as X2. rewrite E in X2. lia. }
  apply (G _ (i_first t)). intros j m f E F. exact (proj2 (proj2 (proj2 (proj2 (order_valid H k P0 t RO j m f E F))))).
Qed.

Lemma filter_and {A} (f g : A -> bool) l : filter g (filter f l) = filter (fun x => f x && g x) l.
Proof using. induction l as [|a l IH]; [reflexivity|]. cbn [filter]. destruct (f a) eqn:F; cbn [filter andb]; rewrite IH; reflexivity. Qed.

Lemma order1_filter : filter valid order1 = filter (fun m => valid m && negb (rebb (im_node m))) (i_order t).
Proof using.
  unfold order1. induction (i_order t) as [|a l IH]; [reflexivity|]. cbn [map filter]. rewrite IH. destruct (rebb (im_node a)) eqn:R; cbn [negb].
  - rewrite andb_false_r. cbn [invalidate valid im_from]. reflexivity.
  - rewrite andb_true_r. reflexivity.
Qed.

Lemma all_nodup : NoDup (map im_node All).
Proof using RO RB L init NWP HI.
  rewrite map_app. fold (all_reb k (fun p => map mrg (reb p))). rewrite all_mg, map_map. rewrite (map_ext _ im_node mg_node).
  apply NoDup_app_intro.
  - rewrite order1_filter, <- filter_and. pose proof order_nodup as N. revert N. generalize (filter valid (i_order t)). clear.
    induction l as [|a l IH]; intros N; [constructor|]. cbn [map] in N. inversion N; subst. cbn [filter]. destruct (negb _); [|exact (IH H2)].
    cbn [map]. constructor; [|exact (IH H2)]. intros I. apply H1. apply in_map_iff in I. destruct I as (x & E & I). apply filter_In in I. rewrite <- E. apply in_map. tauto.
  - exact (rb_nodup H k _ reb RB).
  - intros u I J. apply in_map_iff in I. destruct I as (m & <- & I). apply order1_in in I. destruct I as (_ & _ & R).
    unfold rebb in R. apply mem_false in R. exact (R J).
Qed.

Lemma mg_facts r : In r (all_reb k reb) -> In (im_node r) (nodes H) /\ (im_to r < k)%nat /\
  (forall f, im_from (mrg r) = Some f -> P0 (im_node r) = Some f /\ f <> im_to r) /\
  (valid (mrg r) = false -> P0 (im_node r) = Some (im_to r)).
Proof using RO RB L init NWP HI.
  intros I. apply in_all_reb in I. destruct I as (p & Hp & I). destruct (rb_valid H k _ reb RB p r Hp I) as (R1 & R2 & R3 & R4 & R5).
  split; [exact R1|]. split; [exact R5|]. rewrite p1_at in R3. unfold valid, mg.
  destruct (move_of (view t) (im_node r)) as [[id fm]|] eqn:E.
  - destruct (move_of_inv _ _ _ _ E) as (j & _ & _ & En & _). pose proof (ro_node H k P0 _ RO _ _ _ E) as Hn.
    destruct (ro_valid H k P0 _ RO j fm En) as (_ & X1 & _). rewrite Hn in X1.
    destruct (Nat.eqb_spec (r_from fm) (im_to r)) as [Ef|Nf]; cbn [invalidate im_from im_node im_to].
    + split; [discriminate|]. intros _. congruence.
    + split; [|discriminate]. intros f X. injection X as <-. auto.
  - rewrite R2. split; [|discriminate]. intros f X. injection X as <-. auto.
Qed.

Lemma all_valid m f : In m All -> im_from m = Some f -> In (im_node m) (nodes H) /\ P0 (im_node m) = Some f /\ f <> im_to m /\ (f < k)%nat /\ (im_to m < k)%nat.
Proof using RO RB HC L init NWP HI.
  intros I F. assert (X : In (im_node m) (nodes H) /\ P0 (im_node m) = Some f /\ f <> im_to m /\ (im_to m < k)%nat).
  { apply all_in in I. destruct I as [(I & V & R)|(r & I & ->)].
    - apply In_nth_error in I. destruct I as [j I]. destruct (order_valid H k P0 t RO j m f I F) as (A & B & C & D & _). auto.
    - destruct (mg_facts r I) as (A & B & C & _). rewrite mg_node, mg_to. destruct (C f F). auto. }
  destruct X as (A & B & C & D). repeat (split; [solve [auto]|]). split; [|exact D]. destruct (HC _ A) as (b & Hb & Hk). congruence.
Qed.

Theorem interleave_ok : exists t', interleave (nw H) k L init t reb sched = Some t' /\
  i_first t' = i_first t /\ round_ok H k P0 (view t') /\ of_ok t' /\
  (forall v, prefix P0 (view t') (numMoves (view t')) v = rebalanced k P1 reb v) /\
  Permutation (i_order t') All /\
  immediate H k P0 L (fun p => map mrg (reb p)) (fun u => negb (rebb u)) (i_order t') /\
  filter (fun m => negb (rebb (im_node m))) (i_order t') = filter (fun m => negb (rebb (im_node m))) (filter valid (i_order t)).
Proof using WF NWP HC RO OF RB MS HI HN.
  destruct (merge_result H k P0 t reb RO OF RB sched MS) as (D & [M1 M2 M3 M4] & Dh & Di).
  unfold interleave. destruct (merge t reb sched) as [t1 reb1] eqn:Em. cbn [fst snd] in *.
  assert (Hhit : forall u, hit reb D u = rebb u).
  { intros u. apply eq_true_iff_eq. rewrite Dh. unfold rebb. rewrite mem_In. reflexivity. }
  assert (O1 : i_order t1 = order1).
  { rewrite M2. unfold ord, order1. apply map_ext. intros m. rewrite Hhit. reflexivity. }
  assert (R1 : forall p, (p < k)%nat -> reb1 p = map mrg (reb p)).
  { intros p Hp. apply nth_error_ext. intros i. rewrite M3, nth_error_map. destruct (nth_error (reb p) i) as [r|] eqn:E; [|reflexivity].
    replace (inb D p i) with true; [reflexivity|]. symmetry. apply Di. split; [exact Hp|]. apply nth_error_Some. congruence. }
  assert (RA : concat (map reb1 (seq 0 k)) = concat (map (fun p => map mrg (reb p)) (seq 0 k))).
  { f_equal. apply map_ext_in. intros p Hp. apply in_seq in Hp. apply R1. lia. }
  destruct (sequence_ok H k P0 L order1 reb1 (fun u => negb (rebb u)) WF NWP) with (init := init) (of := i_of t1) as (st0 & st & of' & E0 & E & Pm & Im & Fo & Z0 & Fz).
  - rewrite RA. exact all_nodup.
  - rewrite RA. exact all_valid.
  - intros p m Hp Hm. rewrite (R1 p Hp) in Hm. apply in_map_iff in Hm. destruct Hm as (r & <- & Hr). rewrite mg_node. apply negb_false_iff, rebb_spec.
    exists r. split; [apply in_all_reb; exists p; auto|reflexivity].
  - exact HI.
  - rewrite E0, O1, E. set (out := s_out st ++ tail_moves k reb1 st) in *. eexists. split; [reflexivity|]. cbn [i_order i_first].
    rewrite RA in Pm.
    assert (Nd : NoDup (map im_node out)) by (eapply Permutation_NoDup; [apply Permutation_map; symmetry; exact Pm|exact all_nodup]).
    assert (OI : forall m, In m out -> In m All) by (intros m I; eapply Permutation_in; [exact Pm|exact I]).
    assert (IO : forall m, In m All -> In m out) by (intros m I; eapply Permutation_in; [symmetry; exact Pm|exact I]).
    assert (OFo : of_ok (mkI (i_first t1) out (renumber (i_first t1) out of'))).
    { intros u Hu. cbn [i_first i_order i_of] in *. destruct (in_dec Nat.eq_dec u (map fst (vm out))) as [I|N].
      - apply in_map_iff in I. destruct I as ([a b] & <- & I). apply in_flat_map in I. destruct I as (m & Hm & I). destruct (valid m) eqn:V; [|destruct I].
        destruct I as [X|[]]. injection X as <- <-. cbn [fst]. apply In_nth_error in Hm. destruct Hm as [i Hi]. exists i, m. split; [|auto]. exact (renumber_in out _ _ i m Nd Hi V).
      - rewrite (renumber_out out _ _ u N) in Hu. exfalso. rewrite M1 in Hu. pose proof (ro_first H k P0 _ RO) as F1. cbn [view t_first] in F1.
        destruct (Fz u) as [X|X]; [|lia]. rewrite X in Hu. rewrite M4 in X, Hu. destruct (existsb _ D); [lia|].
        destruct (OF u Hu) as (i & m & A & B & C). subst u.
        assert (I1 : In (if rebb (im_node m) then invalidate m else m) order1) by (unfold order1; apply (in_map (fun m => if rebb (im_node m) then invalidate m else m)); eapply nth_error_In; exact B).
        destruct (rebb (im_node m)) eqn:R.
        + pose proof (Z0 _ I1 eq_refl) as Y. cbn [invalidate im_node] in Y. rewrite Y in X. lia.
        + destruct (valid m) eqn:V; [|pose proof (Z0 _ I1 V); lia]. apply N. apply (in_map fst _ (im_node m, im_to m)). apply in_vm; [|exact V]. apply IO, all_in. left. split; [eapply nth_error_In; exact B|auto]. }
    split; [exact M1|]. split; [|split; [exact OFo|split; [|split; [exact Pm|split; [|]]]]].
    + constructor; cbn [view t_first t_order t_of i_first i_order i_of].
      * rewrite M1. exact (ro_first H k P0 _ RO).
      * unfold numMoves. cbn [view t_order i_order]. rewrite map_length, M1.
        assert (Le : (length (map im_node out) <= length (nodes H))%nat).
        { apply NoDup_incl_length; [exact Nd|]. intros u I. apply in_map_iff in I. destruct I as (m & <- & I). apply OI, all_in in I.
          destruct I as [(I & V & _)|(r & I & ->)].
          - unfold valid in V. destruct (im_from m) as [f|] eqn:F; [|discriminate]. apply In_nth_error in I. destruct I as [j I]. exact (proj1 (order_valid H k P0 t RO j m f I F)).
          - rewrite mg_node. exact (proj1 (mg_facts r I)). }
        rewrite map_length in Le. lia.
      * intros i m Ei. rewrite nth_view in Ei. destruct (nth_error out i) as [x|] eqn:Ex; [|discriminate]. injection Ei as Ei. unfold view1 in Ei.
        destruct (im_from x) as [f|] eqn:F; [|discriminate]. injection Ei as <-. cbn [r_node r_from r_to].
        destruct (all_valid x f (OI x (nth_error_In _ _ Ex)) F) as (A & B & C & _ & D'). repeat (split; [solve [auto]|]).
        apply renumber_in; [exact Nd|exact Ex|]. unfold valid. rewrite F. reflexivity.
      * intros u id m Em'. destruct (move_of_inv _ _ _ _ Em') as (i & _ & Eid & En & Eo). cbn [view t_first t_order t_of i_first i_order i_of] in *.
        rewrite nth_view in En. destruct (nth_error out i) as [x|] eqn:Ex; [|discriminate]. injection En as En. unfold view1 in En.
        destruct (im_from x) as [f|] eqn:F; [|discriminate]. injection En as <-. cbn [r_node].
        destruct (OFo u) as (i' & m' & A & B & C); cbn [i_first i_order i_of] in *; [lia|]. assert (i' = i) by lia. subst i'. congruence.
    + intros v. transitivity (moves P0 (vm out) v).
      { unfold prefix, numMoves. cbn [view t_order i_order]. rewrite firstn_all, vm_view. reflexivity. }
      unfold rebalanced. destruct (rebb v) eqn:R.
      * apply rebb_spec in R. destruct R as (r & I & <-).
        rewrite (moves_in (map (fun m => (im_node m, im_to m)) (all_reb k reb)) P1 (im_node r) (im_to r)).
        2: { rewrite map_map. exact (rb_nodup H k _ reb RB). }
        2: { apply (in_map (fun m => (im_node m, im_to m))), I. }
        assert (Im' : In (mrg r) out) by (apply IO, all_in; right; exists r; auto).
        destruct (valid (mrg r)) eqn:V.
        -- apply moves_in; [apply vm_nodup, Nd|]. rewrite <- (mg_node r), <- (mg_to r). apply in_vm; assumption.
        -- rewrite moves_out; [exact (proj2 (proj2 (proj2 (mg_facts r I))) V)|]. intros X. apply in_map_iff in X. destruct X as ([a b] & Ea & X).
           apply in_flat_map in X. destruct X as (m & Hm & X). destruct (valid m) eqn:Vm; [|destruct X]. destruct X as [X|[]]. injection X as <- <-. cbn [fst] in Ea.
           assert (m = mrg r); [|congruence]. apply (nodup_map_inj im_node out); auto. rewrite mg_node. exact Ea.
      * rewrite (moves_out (map (fun m => (im_node m, im_to m)) (all_reb k reb))).
        2: { rewrite map_map. unfold rebb in R. apply mem_false in R. exact R. }
        rewrite p1_at. destruct (move_of (view t) v) as [[id fm]|] eqn:Emv.
        -- destruct (move_of_inv _ _ _ _ Emv) as (j & _ & _ & En & _). pose proof (ro_node H k P0 _ RO _ _ _ Emv) as Hn. cbn [view t_order] in En.
           rewrite nth_view in En. destruct (nth_error (i_order t) j) as [x|] eqn:Ex; [|discriminate]. injection En as En. unfold view1 in En.
           destruct (im_from x) as [f|] eqn:F; [|discriminate]. injection En as <-. cbn [r_node r_to] in *. subst v.
           apply moves_in; [apply vm_nodup, Nd|]. assert (V : valid x = true) by (unfold valid; rewrite F; reflexivity).
           apply in_vm; [|exact V]. apply IO, all_in. left. split; [eapply nth_error_In; exact Ex|auto].
        -- apply moves_out. intros X. apply in_map_iff in X. destruct X as ([a b] & Ea & X).
           apply in_flat_map in X. destruct X as (m & Hm & X). destruct (valid m) eqn:Vm; [|destruct X]. destruct X as [X|[]]. injection X as <- <-. cbn [fst] in Ea. subst v.
           apply OI, all_in in Hm. destruct Hm as [(I & _ & _)|(r & I & ->)].
           ++ apply In_nth_error in I. destruct I as [j I]. pose proof (moved_idx_valid H k P0 t RO j m I Vm) as X. destruct (moved_idx_move _ _ _ X) as (? & ? & _ & _ & _ & Y). congruence.
           ++ rewrite mg_node in R. assert (rebb (im_node r) = true) by (apply rebb_spec; exists r; auto). congruence.
    + intros a m b Eo V O p Hp Hw r Hr. apply (Im a m b Eo V O p Hp Hw). rewrite (R1 p Hp). exact Hr.
    + rewrite Fo, order1_filter. rewrite !filter_and. apply filter_ext. intros m. destruct (valid m), (rebb (im_node m)); reflexivity.
Qed.
End Final.
