(** SeqRollback.v - revertToBestPrefixSequential (global_rollback.cpp:395-459) and the complete rollback of a round. *)
From Verif Require Import Base Spec SpecLemmas WfCheck PHG PHGProofs Objective GainCache GainCacheProofs Conc ConcProofs ConcMore ConcRun PropsA Rollback RollbackProofs Scan Revert.

(** State of the roll-forward loop, :418-440: partition, overloaded, gain_sum, best_gain, best_index. *)
Record seqst := mkSeq { q_s : phg; q_over : Z; q_gain : Z; q_best_gain : Z; q_best : nat }.
Section Model.
Variables (H : hypergraph) (t : tracker) (L : nat -> Z) (gain_of : sync_update -> Z).
(** One iteration of the loop :422-440 ([gain_of] is AttributedGains::gain). *)
Definition seq1 (q : seqst) (i : nat) : option seqst :=
  match entry (t_order t) i with
  | None => Some q
  | Some m =>
    let s := q_s q in
    let from_overloaded := L (r_from m) <? partWeight s (r_from m) in
    let to_overloaded := L (r_to m) <? partWeight s (r_to m) in
    match changeNodePart H s (r_node m) (r_from m) (r_to m) MAXW with
    | None => None
    | Some (s', _, sus) =>
      let gain := q_gain q - sumZ gain_of sus in
      let o1 := if from_overloaded && (partWeight s' (r_from m) <=? L (r_from m)) then q_over q - 1 else q_over q in
      let o2 := if negb to_overloaded && (L (r_to m) <? partWeight s' (r_to m)) then o1 + 1 else o1 in
      if (o2 =? 0) && (q_best_gain q <? gain) then Some (mkSeq s' o2 gain gain (i + 1)) else Some (mkSeq s' o2 gain (q_best_gain q) (q_best q))
    end
  end.
Definition seq_forward (s : phg) : option seqst :=
  fold_opt seq1 (mkSeq s (overloaded0 (pk s) L (partWeight s)) 0 0 0) (seq 0 (numMoves t)).
End Model.

Lemma block_weight_le_total H (NWP : forall v, In v (nodes H) -> 0 <= nw H v) P b : block_weight H P b <= total_weight H.
Proof.
  rewrite block_weight_sum. unfold total_weight. apply sumZ_le. intros v Hv. specialize (NWP v Hv). destruct (in_block P b v); lia.
Qed.

Section Proofs.
Variables (H : hypergraph) (k : nat) (P0 : partition) (t : tracker) (L : nat -> Z).
Variables (gain_of : sync_update -> Z) (f : hypergraph -> partition -> nat -> Z).
Notation obj := (fun P => sumZ (f H P) (edges H)).
Hypothesis (WF : wf_hg H) (RO : round_ok H k P0 t) (HC : complete H P0 k)
  (NWP : forall v, In v (nodes H) -> 0 <= nw H v) (HT : total_weight H <= MAXW)
  (Hext : forall e P Q, In e (edges H) -> (forall v, In v (pins H e) -> P v = Q v) -> f H P e = f H Q e)
  (Hatt : forall P u from to, In u (nodes H) -> P u = Some from -> from <> to -> (to < k)%nat -> complete H P k ->
     sumZ gain_of (sus_of H P u from to) = obj (move P u to) - obj P).

Lemma obj_ext P Q : (forall v, In v (nodes H) -> P v = Q v) -> obj P = obj Q.
Proof. intros E. apply sumZ_ext. intros e He. apply Hext; [exact He|]. intros v Hv. apply E, (wf_pins_nodes H WF e v He Hv). Qed.


Definition seq_inv (i : nat) (q : seqst) : Prop :=
  consistent H (q_s q) /\ pk (q_s q) = k /\ (forall v, In v (nodes H) -> part (q_s q) v = prefix P0 t i v) /\
  q_over q = overloaded0 k L (partWeight (q_s q)) /\ q_gain q = obj P0 - obj (prefix P0 t i) /\
  (q_best q <= i)%nat /\ q_best_gain q = obj P0 - obj (prefix P0 t (q_best q)) /\ 0 <= q_best_gain q /\
  (q_best q = 0%nat \/ balanced H (prefix P0 t (q_best q)) k L) /\
  forall j, (0 < j <= i)%nat -> balanced H (prefix P0 t j) k L -> obj P0 - obj (prefix P0 t j) <= q_best_gain q.

Lemma prefix_complete i : (i <= numMoves t)%nat -> complete H (prefix P0 t i) k.
Proof. intros Hi v Hv. rewrite (prefix_at H k P0 t i RO Hi). apply (at_complete H k P0 t i RO HC v Hv). Qed.

Lemma seq1_inv i q : (i < numMoves t)%nat -> seq_inv i q -> exists q', seq1 H t L gain_of q i = Some q' /\ seq_inv (S i) q'.
Proof.
  intros Hi (C & K & EP & EO & EG & BI & BG & BN & BB & BM). unfold seq1. destruct (entry (t_order t) i) as [m|] eqn:E.
  - pose proof (entry_nth t i m E) as En. destruct (ro_valid H k P0 t RO i m En) as (Hn & Hp0 & Hft & Ht & _).
    assert (Hpu : part (q_s q) (r_node m) = Some (r_from m)).
    { rewrite (EP _ Hn), (prefix_at H k P0 t i RO) by lia. apply (prefix_all_valid H k P0 t i m RO En). }
    assert (Hf : (r_from m < k)%nat) by (rewrite <- K; apply (c_part H _ C _ _ Hpu)).
    assert (HCs : complete H (part (q_s q)) k) by (intros v Hv; rewrite (EP v Hv); apply (prefix_complete i ltac:(lia) v Hv)).
    assert (Mp : forall b, block_weight H (move (part (q_s q)) (r_node m) (r_to m)) b <= MAXW) by (intros b; pose proof (block_weight_le_total H NWP (move (part (q_s q)) (r_node m) (r_to m)) b); lia).
    assert (Hw : wt (q_s q) (r_to m) + nw H (r_node m) <= MAXW).
    { specialize (Mp (r_to m)). rewrite block_weight_move in Mp by (try apply WF; assumption). rewrite Nat.eqb_refl in Mp. unfold in_block in Mp at 1. rewrite Hpu in Mp.
      destruct (Nat.eqb_spec (r_from m) (r_to m)); [contradiction|]. rewrite <- (c_wt H _ C (r_to m)) in Mp by lia. cbn [Z.b2z] in Mp. lia. }
    destruct (change_accept H WF (q_s q) (r_node m) (r_from m) (r_to m) MAXW C Hn Hpu Hft ltac:(lia) Hw) as (s' & Ec & C' & K' & P').
    rewrite Ec. fold (sus_of H (part (q_s q)) (r_node m) (r_from m) (r_to m)). rewrite (Hatt (part (q_s q)) (r_node m) (r_from m) (r_to m) Hn Hpu Hft Ht HCs).
    assert (EP' : forall v, In v (nodes H) -> part s' v = prefix P0 t (S i) v).
    { intros v Hv. rewrite P', (prefix_S P0 t i (Some m) En). unfold move, upd. destruct (Nat.eqb v (r_node m)); [reflexivity|apply EP, Hv]. }
    assert (EG' : q_gain q - (obj (move (part (q_s q)) (r_node m) (r_to m)) - obj (part (q_s q))) = obj P0 - obj (prefix P0 t (S i))).
    { rewrite EG, (obj_ext (part (q_s q)) (prefix P0 t i) EP). rewrite <- P', (obj_ext (part s') (prefix P0 t (S i)) EP'). lia. }
    rewrite EG'. clear EG'. set (G := obj P0 - obj (prefix P0 t (S i))).
    set (o2 := if negb _ && _ then _ else _).
    assert (O2 : o2 = overloaded0 k L (partWeight s')).
    { assert (Wf : forall b, (b < k)%nat -> wt s' b = wt (q_s q) b + (if Nat.eqb b (r_to m) then nw H (r_node m) else 0) - (if Nat.eqb b (r_from m) then nw H (r_node m) else 0)).
      { intros b Hb. rewrite (c_wt H s' C' b) by lia. rewrite P', block_weight_move by (try apply WF; assumption). rewrite (c_wt H _ C b) by lia. unfold in_block. rewrite Hpu, (Nat.eqb_sym (r_to m) b), (Nat.eqb_sym (r_from m) b).
        destruct (Nat.eqb b (r_to m)), (Nat.eqb b (r_from m)); cbn [Z.b2z]; lia. }
      set (w := nw H (r_node m)) in *. assert (0 <= w) by (apply NWP, Hn).
      assert (OV : overloaded0 k L (partWeight s') = overloaded0 k L (upd (upd (wt (q_s q)) (r_from m) (wt (q_s q) (r_from m) - w)) (r_to m) (wt (q_s q) (r_to m) + w))).
      { unfold overloaded0. apply sumZ_ext. intros b Hb. apply in_seq in Hb. unfold partWeight. rewrite Wf by lia. unfold upd.
        destruct (Nat.eqb_spec b (r_to m)) as [->|]; [destruct (Nat.eqb_spec (r_to m) (r_from m)); [congruence|]|destruct (Nat.eqb_spec b (r_from m)) as [->|]].
        - replace (wt (q_s q) (r_to m) + w - 0) with (wt (q_s q) (r_to m) + w) by lia. reflexivity.
        - replace (wt (q_s q) (r_from m) + 0 - w) with (wt (q_s q) (r_from m) - w) by lia. reflexivity.
        - replace (wt (q_s q) b + 0 - 0) with (wt (q_s q) b) by lia. reflexivity. }
      assert (Hk0 : (0 < k)%nat) by lia.
      rewrite OV, (overloaded0_upd k L) by exact Ht. rewrite (overloaded0_upd k L) by exact Hf. rewrite upd_other by congruence.
      unfold o2, partWeight. rewrite EO. unfold partWeight. rewrite !Wf by lia. rewrite !Nat.eqb_refl.
      destruct (Nat.eqb_spec (r_from m) (r_to m)); [congruence|]. destruct (Nat.eqb_spec (r_to m) (r_from m)); [congruence|].
      set (A := wt (q_s q) (r_from m)). set (B := wt (q_s q) (r_to m)). set (LF := L (r_from m)). set (LT := L (r_to m)).
      change (fun p => wt (q_s q) p) with (wt (q_s q)).
      generalize (overloaded0 k L (wt (q_s q))). intros O. clear - H0.
      destruct (Z.ltb_spec LF A), (Z.leb_spec (A + 0 - w) LF), (Z.ltb_spec LF (A - w)); cbn [andb]; try lia;
      destruct (Z.ltb_spec LT B), (Z.ltb_spec LT (B + w - 0)), (Z.ltb_spec LT (B + w)); cbn [negb andb]; lia. }
    assert (OB : (o2 =? 0) = true <-> balanced H (prefix P0 t (S i)) k L).
    { rewrite O2. apply (over_balanced H k L (prefix P0 t (S i))). intros p Hp. unfold partWeight. rewrite (c_wt H s' C' p) by lia. apply block_weight_ext. exact EP'. }
    destruct (o2 =? 0) eqn:E0; cbn [andb]; [destruct (Z.ltb_spec (q_best_gain q) G) as [Hlt|Hge]|].
    + eexists. split; [reflexivity|]. unfold seq_inv. cbn [q_s q_over q_gain q_best_gain q_best]. rewrite Nat.add_1_r.
      repeat apply conj; try assumption; try reflexivity; try lia.
      * right. apply OB. reflexivity.
      * intros j Hj Bj. destruct (Nat.eq_dec j (S i)) as [->|]; [apply Z.le_refl|]. specialize (BM j ltac:(lia) Bj). lia.
    + eexists. split; [reflexivity|]. unfold seq_inv. cbn [q_s q_over q_gain q_best_gain q_best].
      repeat apply conj; try assumption; try reflexivity; try lia.
      intros j Hj Bj. destruct (Nat.eq_dec j (S i)) as [->|]; [exact Hge|]. apply (BM j ltac:(lia) Bj).
    + eexists. split; [reflexivity|]. unfold seq_inv. cbn [q_s q_over q_gain q_best_gain q_best].
      repeat apply conj; try assumption; try reflexivity; try lia.
      intros j Hj Bj. destruct (Nat.eq_dec j (S i)) as [->|]; [apply OB in Bj; discriminate|]. apply (BM j ltac:(lia) Bj).
  - exists q. split; [reflexivity|]. unfold seq_inv. rewrite (entry_none P0 t i E). repeat apply conj; try assumption; try lia.
    intros j Hj Bj. destruct (Nat.eq_dec j (S i)) as [->|]; [|apply (BM j ltac:(lia) Bj)]. rewrite (entry_none P0 t i E) in Bj |- *. destruct i as [|i].
    + change (prefix P0 t 0) with P0. lia.
    + apply (BM (S i) ltac:(lia) Bj).
Qed.

Lemma seq_forward_ok s : consistent H s -> pk s = k -> (forall v, In v (nodes H) -> part s v = P0 v) ->
  exists q, seq_forward H t L gain_of s = Some q /\ seq_inv (numMoves t) q.
Proof.
  intros C K EP. unfold seq_forward.
  assert (I0 : seq_inv 0 (mkSeq s (overloaded0 (pk s) L (partWeight s)) 0 0 0)).
  { unfold seq_inv. cbn [q_s q_over q_gain q_best_gain q_best]. change (prefix P0 t 0) with P0. rewrite K.
    repeat apply conj; try assumption; try reflexivity; try lia; left; reflexivity. }
  assert (G : forall n q, seq_inv 0 q -> (n <= numMoves t)%nat -> exists q', fold_opt (seq1 H t L gain_of) q (seq 0 n) = Some q' /\ seq_inv n q').
  { intros n. induction n as [|n IH]; intros q Hq Hn; [exists q; auto|]. destruct (IH q Hq ltac:(lia)) as (q1 & E1 & I1).
    destruct (seq1_inv n q1 ltac:(lia) I1) as (q2 & E2 & I2). exists q2. split; [|exact I2]. rewrite (seq_S n 0), fold_opt_app, E1. cbn. rewrite E2. reflexivity. }
  apply G; [exact I0|lia].
Qed.
End Proofs.

(** ---- the complete rollback of a round ---- *)
(** What a round must deliver: the final partition is a prefix of the move sequence; the returned improvement is the
    true decrease of the objective and not negative; no balanced prefix is better; a balanced partition stays balanced;
    all tracked data agrees with the block ids. *)
Definition round_result (H : hypergraph) (k : nat) (P0 : partition) (t : tracker) (L : nat -> Z) (obj : hypergraph -> partition -> Z)
  (improvement : Z) (s : phg) : Prop :=
  (exists j, (j <= numMoves t)%nat /\ (forall v, In v (nodes H) -> part s v = prefix P0 t j v) /\ (j = 0%nat \/ balanced H (part s) k L)) /\
  improvement = obj H P0 - obj H (part s) /\ 0 <= improvement /\
  (balanced H P0 k L -> balanced H (part s) k L) /\
  (forall j, (j <= numMoves t)%nat -> balanced H (prefix P0 t j) k L -> obj H (part s) <= obj H (prefix P0 t j)) /\
  consistent H s /\ pk s = k.

Lemma balanced_ext H P Q k L : (forall v, In v (nodes H) -> P v = Q v) -> balanced H P k L -> balanced H Q k L.
Proof. intros E B b Hb. rewrite <- (block_weight_ext H P Q b E). apply B, Hb. Qed.

Section Complete.
Variables (H : hypergraph) (k : nat) (P0 : partition) (t : tracker) (L : nat -> Z) (s : phg) (f : hypergraph -> partition -> nat -> Z).
Notation obj := (fun (H : hypergraph) (P : partition) => sumZ (f H P) (edges H)).
Hypothesis (A : after_round H k P0 t s) (NWP : forall v, In v (nodes H) -> 0 <= nw H v) (HT : total_weight H <= MAXW) (Hk : (0 < k)%nat)
  (Hext : forall P Q e, (forall v, In v (pins H e) -> P v = Q v) -> f H P e = f H Q e).

Lemma finish best gain st : (best <= numMoves t)%nat -> (forall v, In v (nodes H) -> part (sh st) v = prefix P0 t best v) ->
  consistent H (sh st) -> pk (sh st) = k -> gain = obj H P0 - obj H (prefix P0 t best) -> 0 <= gain ->
  (best = 0%nat \/ balanced H (prefix P0 t best) k L) ->
  (forall j, (j <= numMoves t)%nat -> balanced H (prefix P0 t j) k L -> obj H (prefix P0 t best) <= obj H (prefix P0 t j)) ->
  round_result H k P0 t L obj gain (sh st).
Proof.
  intros Hb EP C K Eg Gn Bb Bm. pose proof (ar_wf H k P0 t s A) as WF.
  assert (EO : obj H (part (sh st)) = obj H (prefix P0 t best)).
  { apply sumZ_ext. intros e He. apply Hext. intros v Hv. apply EP, (wf_pins_nodes H WF e v He Hv). }
  assert (EPs : forall v, In v (nodes H) -> prefix P0 t best v = part (sh st) v) by (intros v Hv; symmetry; apply EP, Hv).
  split; [|split; [|split; [exact Gn|split; [|split; [|split; [exact C|exact K]]]]]].
  - exists best. split; [exact Hb|]. split; [exact EP|]. destruct Bb as [Bb|Bb]; [left; exact Bb|right; exact (balanced_ext H _ _ k L EPs Bb)].
  - cbv beta in *. rewrite EO. exact Eg.
  - intros B0. destruct Bb as [Eb|Bb]; [|exact (balanced_ext H _ _ k L EPs Bb)]. subst best. exact (balanced_ext H _ _ k L EPs B0).
  - intros j Hj Bj. cbv beta in *. rewrite EO. apply Bm; assumption.
Qed.

Lemma parallel_rollback g fs threads n cu c l st init :
  (forall i, g i = obj H (prefix P0 t i) - obj H (prefix P0 t (S i))) ->
  (forall p, (p < k)%nat -> init p = block_weight H P0 p) ->
  scan_ok H k (t_order t) g L init (numMoves t) fs -> (forall x, In x fs -> In (fs_thread x) threads) ->
  let r := scan_result H k (t_order t) g L init fs threads in
  crun H n cu (cinit s c) l = Some st -> quiescent n st -> Permutation (begins l) (reverts t (p_index r)) ->
  round_result H k P0 t L obj (p_gain r) (sh st).
Proof.
  intros Hg Hi SO Ht r E Q Pm. pose proof A as [WF RO HC Ek C Hp].
  assert (SI : scan_input H k P0 t init).
  { constructor; auto. intros p Hp'. rewrite Hi by exact Hp'. pose proof (block_weight_le_total H NWP P0 p). lia. }
  destruct (C27_best_balanced_prefix H k P0 t init g L (fun P => obj H P) fs threads SI ltac:(intros; apply Hg) SO Ht) as (R1 & R2 & R3 & R4 & R5 & R6). fold r in R1, R2, R3, R4, R5, R6.
  destruct (C28_revert_restores_prefix H k P0 t s n cu c l st (p_index r) A NWP HT R1 E Q Pm) as (X1 & _ & _ & _ & X2 & X3).
  apply (finish (p_index r)); assumption.
Qed.

Lemma sequential_rollback gain_of n cu c l st q n2 cu2 c2 l2 st2 :
  (forall P u from to, In u (nodes H) -> P u = Some from -> from <> to -> (to < k)%nat -> complete H P k ->
     sumZ gain_of (sus_of H P u from to) = obj H (move P u to) - obj H P) ->
  crun H n cu (cinit s c) l = Some st -> quiescent n st -> Permutation (begins l) (reverts t 0) ->
  (exists q, seq_forward H t L gain_of (sh st) = Some q) /\
  (seq_forward H t L gain_of (sh st) = Some q ->
   crun H n2 cu2 (cinit (q_s q) c2) l2 = Some st2 -> quiescent n2 st2 -> Permutation (begins l2) (reverts t (q_best q)) ->
   round_result H k P0 t L obj (q_best_gain q) (sh st2)).
Proof.
  intros Hatt E Q Pm. pose proof A as [WF RO HC Ek C Hp].
  destruct (C28_revert_restores_prefix H k P0 t s n cu c l st 0 A NWP HT ltac:(lia) E Q Pm) as (X1 & _ & _ & _ & X2 & X3).
  destruct (seq_forward_ok H k P0 t L gain_of f WF RO HC NWP HT (fun e P Q' _ => Hext P Q' e) Hatt (sh st) X2 X3 X1) as (q' & Eq & I).
  split; [exists q'; exact Eq|]. intros Eq' E2 Q2 Pm2. rewrite Eq in Eq'. injection Eq' as ->.
  destruct I as (C1 & K1 & EP1 & _ & _ & BI & BG & BN & BB & BM).
  assert (A2 : after_round H k P0 t (q_s q)) by (constructor; assumption).
  destruct (C28_revert_restores_prefix H k P0 t (q_s q) n2 cu2 c2 l2 st2 (q_best q) A2 NWP HT BI E2 Q2 Pm2) as (Y1 & _ & _ & _ & Y2 & Y3).
  apply (finish (q_best q)); try assumption.
  intros j Hj Bj. destruct j as [|j]; [change (prefix P0 t 0) with P0; lia|]. specialize (BM (S j) ltac:(lia) Bj). lia.
Qed.
End Complete.

(** C27 for a whole round, parallel rollback: gain recalculation by any threads in any order, any split of the scan,
    reverting moves in any interleaving. *)
Theorem C27_parallel_rollback_round : forall H k P0 t L s sched fs threads n cache_updates c l st init, after_round H k P0 t s ->
  (forall e, In e (edges H) -> 0 <= ew H e) -> (forall v, In v (nodes H) -> 0 <= nw H v) -> total_weight H <= MAXW -> (0 < k)%nat ->
  covers H t sched -> (forall p, (p < k)%nat -> init p = block_weight H P0 p) -> (forall x, In x fs -> In (fs_thread x) threads) ->
  crun H n cache_updates (cinit s c) l = Some st -> quiescent n st ->
  (forall rs, (forall j, clean km1_rollback (rs j)) -> let g := snd (recalculateGains km1_rollback H k t s rs sched) in
     let r := scan_result H k (t_order t) g L init fs threads in
     scan_ok H k (t_order t) g L init (numMoves t) fs -> Permutation (begins l) (reverts t (p_index r)) -> round_result H k P0 t L km1 (p_gain r) (sh st)) /\
  (forall rs, (forall j, clean cut_rollback (rs j)) -> let g := snd (recalculateGains cut_rollback H k t s rs sched) in
     let r := scan_result H k (t_order t) g L init fs threads in
     scan_ok H k (t_order t) g L init (numMoves t) fs -> Permutation (begins l) (reverts t (p_index r)) -> round_result H k P0 t L cut (p_gain r) (sh st)) /\
  (forall rs, (forall j, clean soed_rollback (rs j)) -> let g := snd (recalculateGains soed_rollback H k t s rs sched) in
     let r := scan_result H k (t_order t) g L init fs threads in
     scan_ok H k (t_order t) g L init (numMoves t) fs -> Permutation (begins l) (reverts t (p_index r)) -> round_result H k P0 t L soed (p_gain r) (sh st)).
Proof.
  intros H k P0 t L s sched fs threads n cu c l st init A Hw NWP HT Hk Cv Hi Ht E Q.
  destruct (C26_recalculated_gains_exact H k P0 t s sched A Hw Cv) as (G1 & G2 & G3).
  split; [|split]; intros rs Hrs g r SO Pm.
  - destruct (G1 rs Hrs) as [_ G]. exact (parallel_rollback H k P0 t L s km1_edge A NWP HT Hk (fun P Q' e => km1_edge_ext H P Q' e) g fs threads n cu c l st init G Hi SO Ht E Q Pm).
  - destruct (G2 rs Hrs) as [_ G]. exact (parallel_rollback H k P0 t L s cut_edge A NWP HT Hk (fun P Q' e => cut_edge_ext H P Q' e) g fs threads n cu c l st init G Hi SO Ht E Q Pm).
  - destruct (G3 rs Hrs) as [_ G]. exact (parallel_rollback H k P0 t L s soed_edge A NWP HT Hk (fun P Q' e => soed_edge_ext H P Q' e) g fs threads n cu c l st init G Hi SO Ht E Q Pm).
Qed.

(** C27 for a whole round, sequential rollback: revert everything in parallel, roll forward, revert the rejected suffix
    in parallel.  The roll-forward never fails (first conjunct of each part). *)
Theorem C27_sequential_rollback_round : forall H k P0 t L s n cache_updates c l st q n2 cache_updates2 c2 l2 st2, after_round H k P0 t s ->
  (forall v, In v (nodes H) -> 0 <= nw H v) -> total_weight H <= MAXW -> (0 < k)%nat ->
  crun H n cache_updates (cinit s c) l = Some st -> quiescent n st -> Permutation (begins l) (reverts t 0) ->
  let rolled g := seq_forward H t L g (sh st) in
  ((exists q', rolled km1_gain_of = Some q') /\ (exists q', rolled cut_gain_of = Some q') /\ (exists q', rolled soed_gain_of = Some q')) /\
  (crun H n2 cache_updates2 (cinit (q_s q) c2) l2 = Some st2 -> quiescent n2 st2 -> Permutation (begins l2) (reverts t (q_best q)) ->
   (rolled km1_gain_of = Some q -> round_result H k P0 t L km1 (q_best_gain q) (sh st2)) /\
   (rolled cut_gain_of = Some q -> round_result H k P0 t L cut (q_best_gain q) (sh st2)) /\
   (rolled soed_gain_of = Some q -> round_result H k P0 t L soed (q_best_gain q) (sh st2))).
Proof.
  intros H k P0 t L s n cu c l st q n2 cu2 c2 l2 st2 A NWP HT Hk E Q Pm rolled. pose proof (ar_wf H k P0 t s A) as WF.
  pose proof (sequential_rollback H k P0 t L s km1_edge A NWP HT Hk (fun P Q' e => km1_edge_ext H P Q' e) km1_gain_of n cu c l st q n2 cu2 c2 l2 st2) as X1.
  pose proof (sequential_rollback H k P0 t L s cut_edge A NWP HT Hk (fun P Q' e => cut_edge_ext H P Q' e) cut_gain_of n cu c l st q n2 cu2 c2 l2 st2) as X2.
  pose proof (sequential_rollback H k P0 t L s soed_edge A NWP HT Hk (fun P Q' e => soed_edge_ext H P Q' e) soed_gain_of n cu c l st q n2 cu2 c2 l2 st2) as X3.
  destruct X1 as [A1 B1]; [intros P u from to Hu Hp Hft Ht HC; exact (km1_attributed H k P u from to WF Hu Hp Hft Ht HC)|exact E|exact Q|exact Pm|].
  destruct X2 as [A2 B2]; [intros P u from to Hu Hp Hft Ht HC; exact (cut_attributed H k P u from to WF Hu Hp Hft Ht HC)|exact E|exact Q|exact Pm|].
  destruct X3 as [A3 B3]; [intros P u from to Hu Hp Hft Ht HC; exact (soed_attributed H k P u from to WF Hu Hp Hft Ht HC)|exact E|exact Q|exact Pm|].
  split; [split; [exact A1|split; [exact A2|exact A3]]|]. intros E2 Q2 Pm2. split; [|split]; intros Er.
  - exact (B1 Er E2 Q2 Pm2).
  - exact (B2 Er E2 Q2 Pm2).
  - exact (B3 Er E2 Q2 Pm2).
Qed.

(** Non-vacuity: a round of three moves of which the first two are kept and the third one is reverted. *)
Definition ex_t2 : tracker := mkT 9 [Some (mkRM 2 1 0); Some (mkRM 3 1 0); Some (mkRM 1 0 1)]
  (fun v => match v with 2%nat => 9 | 3%nat => 10 | 1%nat => 11 | _ => 4 end).
Definition ex_ops2 : list phg_op := [OSetOnly 0 0; OSetOnly 1 1; OSetOnly 2 0; OSetOnly 3 0; OInit [[0;1];[2;3]] [2;0;1]]%nat.
Definition ex_state2 : phg := match phg_run exH (phg_init 2) ex_ops2 with Some s => s | None => phg_init 0 end.
Lemma ex_after_round2 : after_round exH 2 ex_P0 ex_t2 ex_state2.
Proof.
  assert (X : phg_run exH (phg_init 2) ex_ops2 = Some ex_state2).
  { unfold ex_state2. assert (Y : match phg_run exH (phg_init 2) ex_ops2 with Some _ => true | None => false end = true) by (vm_compute; reflexivity).
    destruct (phg_run exH (phg_init 2) ex_ops2); [reflexivity|discriminate Y]. }
  assert (Pm : Permutation [2;0;1]%nat (edges exH)).
  { simpl. apply perm_trans with [0;2;1]%nat; [apply perm_swap|]. apply perm_skip, perm_swap. }
  assert (FO : Forall (op_schedule_ok exH) ex_ops2).
  { repeat (apply Forall_cons; [try (simpl; tauto)|]); [|apply Forall_nil]. split; [apply Permutation_refl|exact Pm]. }
  assert (M0 : mode_inv exH MEmpty (phg_init 2)) by (simpl; split; [apply only_ids_init|reflexivity]).
  assert (AR : api_run MEmpty ex_ops2 = Some MLive) by reflexivity.
  pose proof (history_inv exH ex_ops2 MEmpty MLive (phg_init 2) ex_state2 exH_wf M0 AR FO X) as M.
  constructor.
  - apply exH_wf.
  - constructor.
    + simpl. lia.
    + vm_compute. discriminate.
    + intros i m E. destruct i as [|[|[|i]]]; cbn [ex_t2 t_order nth_error] in E; try discriminate E;
        [injection E as <-; cbn; repeat apply conj; try reflexivity; [tauto|discriminate|lia]..|destruct i; discriminate E].
    + intros u id m E. destruct u as [|[|[|[|u]]]].
      * vm_compute in E. discriminate E.
      * vm_compute in E. injection E as _ <-. reflexivity.
      * vm_compute in E. injection E as _ <-. reflexivity.
      * vm_compute in E. injection E as _ <-. reflexivity.
      * vm_compute in E. discriminate E.
  - intros v Hv. simpl in Hv. destruct Hv as [<-|[<-|[<-|[<-|[]]]]]; simpl; eexists; split; try reflexivity; lia.
  - exact (proj2 M).
  - exact (proj1 M).
  - intros v Hv. simpl in Hv. destruct Hv as [<-|[<-|[<-|[<-|[]]]]]; vm_compute; reflexivity.
Qed.
Definition ex_g2 : nat -> Z := snd (recalculateGains cut_rollback exH 2 ex_t2 ex_state2 (fun _ _ => czero) [(0,2);(1,0);(0,1)]%nat).
Definition ex_init2 : nat -> Z := fun p => match p with 0%nat => 3 | _ => 4 end.
Definition ex_L2 : nat -> Z := fun _ => 8.
(** Thread 1 handles [1,3) after a pre-scan of [0,1); thread 0 handles [0,1). *)
Definition ex_fs2 : list fscan :=
  [mkFS 1 1 3 (pre_scan exH (t_order ex_t2) ex_g2 (mkB 0 ex_init2) 0 1); mkFS 0 0 1 (mkB 0 ex_init2)].
Lemma ex_scan_ok2 : scan_ok exH 2 (t_order ex_t2) ex_g2 ex_L2 ex_init2 (numMoves ex_t2) ex_fs2.
Proof.
  split.
  - apply Forall_cons; [|apply Forall_cons; [|apply Forall_nil]]; cbn [fs_lo fs_hi fs_body]; (split; [|lia]).
    + apply full_pre; [apply full_init|lia].
    + apply full_init.
  - cbn. apply perm_trans with [1; 0; 2]%nat; [apply perm_skip, perm_swap|apply perm_swap].
Qed.
Definition ex_revert2 : cst := exec_greedy 2 cut_mops (cinit ex_state2 (mkCache (fun _ => 0) (fun _ _ => 0)))
  (Begin 0 (mkMv 1 1 0 MAXW) :: repeat (Adv 0) 30)%nat.
Example ex_C27 : map ex_g2 [0;1;2]%nat = [-1; 4; -2] /\ scan_result exH 2 (t_order ex_t2) ex_g2 ex_L2 ex_init2 ex_fs2 [0;1]%nat = mkPfx 3 2 7 /\
  reverts ex_t2 2 = [mkMv 1 1 0 MAXW]%nat /\ quiescent 2 ex_revert2 /\ map (part (sh ex_revert2)) [0;1;2;3]%nat = [Some 0; Some 0; Some 0; Some 0]%nat /\
  (cut exH ex_P0 = 3 /\ cut exH (part (sh ex_revert2)) = 0) /\ covers exH ex_t2 [(0,2);(1,0);(0,1)]%nat.
Proof.
  repeat apply conj; try (vm_compute; reflexivity).
  - intros i Hi. destruct i as [|[|i]]; [vm_compute; reflexivity|vm_compute; reflexivity|lia].
  - repeat constructor; simpl; intuition discriminate.
  - intros e He. simpl in *. tauto.
  - intros e v He _ _. simpl in *. tauto.
Qed.
(** The sequential roll-forward on the reverted state finds the same prefix. *)
Definition ex_ops3 : list phg_op := [OSetOnly 0 0; OSetOnly 1 0; OSetOnly 2 1; OSetOnly 3 1; OInit [[0;1];[2;3]] [2;0;1]]%nat.
Example ex_C27_seq : match phg_run exH (phg_init 2) ex_ops3 with
  | Some s => match seq_forward exH ex_t2 ex_L2 cut_gain_of s with Some q => (q_best q, q_best_gain q, q_gain q, q_over q) | None => (9%nat, 9, 9, 9) end
  | None => (9%nat, 9, 9, 9) end = (2%nat, 3, 1, 0).
Proof. vm_compute. reflexivity. Qed.
