(** RollbackProofs.v - C26: the recalculated gains are the true gains of the sequential execution. *)
From Verif Require Import Base Spec SpecLemmas WfCheck PHG PHGProofs Objective GainCache GainCacheProofs Conc ConcProofs ConcRun Rollback.

(** The state after the round: the partition data structure is consistent and holds the assignment reached by
    all valid moves. *)
Record after_round (H : hypergraph) (k : nat) (P0 : partition) (t : tracker) (s : phg) : Prop := {
  ar_wf : wf_hg H; ar_round : round_ok H k P0 t; ar_complete : complete H P0 k;
  ar_k : pk s = k; ar_cons : consistent H s;
  ar_part : forall v, In v (nodes H) -> part s v = prefix P0 t (numMoves t) v
}.

Lemma at_all P0 t v : at_time P0 t (numMoves t) v = match move_of t v with Some (_, m) => Some (r_to m) | None => P0 v end.
Proof.
  unfold at_time. destruct (move_of t v) as [[id m]|] eqn:E; [|reflexivity].
  destruct (move_of_inv t v id m E) as (j & Hj & -> & _). replace (_ <? _) with true by lia. reflexivity.
Qed.

Lemma ar_final H k P0 t s v : after_round H k P0 t s -> In v (nodes H) ->
  part s v = match move_of t v with Some (_, m) => Some (r_to m) | None => P0 v end.
Proof.
  intros A Hv. rewrite (ar_part H k P0 t s A v Hv), (prefix_at H k P0 t _ (ar_round H k P0 t s A)) by lia. apply at_all.
Qed.

Lemma move_of_facts H k P0 t u id m : round_ok H k P0 t -> move_of t u = Some (id, m) ->
  exists i, (i < numMoves t)%nat /\ id = t_first t + Z.of_nat i /\ nth_error (t_order t) i = Some (Some m) /\ r_node m = u /\
    P0 u = Some (r_from m) /\ r_from m <> r_to m /\ (r_to m < k)%nat.
Proof.
  intros RO E. destruct (move_of_inv t u id m E) as (i & Hi & Eid & En & _). pose proof (ro_node H k P0 t RO u id m E) as Hn.
  destruct (ro_valid H k P0 t RO i m En) as (_ & X1 & X2 & X3 & _). exists i. rewrite Hn in X1. tauto.
Qed.

Lemma at_complete H k P0 t i : round_ok H k P0 t -> complete H P0 k -> complete H (at_time P0 t i) k.
Proof.
  intros RO HC v Hv. unfold at_time. destruct (HC v Hv) as (b & Hb & Hk). destruct (move_of t v) as [[id m]|] eqn:E; [|eauto].
  destruct (move_of_facts H k P0 t v id m RO E) as (j & _ & _ & _ & _ & X1 & _ & X3).
  destruct (_ <? _); eexists; split; try reflexivity; [exact X3|]. congruence.
Qed.

Lemma pin_zero_iff H P e b : pin_count H P e b = 0 <-> forall v, In v (pins H e) -> P v <> Some b.
Proof.
  pose proof (pin_count_nonneg H P e b). pose proof (pin_count_pos_iff H P e b) as X. split.
  - intros E v Hv Hb. assert (0 < pin_count H P e b) by (apply X; eauto). lia.
  - intros N. destruct (Z_lt_le_dec 0 (pin_count H P e b)) as [Hp|]; [|lia]. apply X in Hp. destruct Hp as (v & Hv & Hb).
    destruct (N v Hv Hb).
Qed.
Lemma pin_full_iff H P e b : pin_count H P e b = esize H e <-> forall v, In v (pins H e) -> P v = Some b.
Proof.
  rewrite pin_count_sum. unfold esize. rewrite sumZ_length. split.
  - intros E v Hv. assert (Z0 : sumZ (fun v => 1 - Z.b2z (in_block P b v)) (pins H e) = 0) by (rewrite sumZ_minus; lia).
    pose proof (sumZ_eq0 (fun v => 1 - Z.b2z (in_block P b v)) (pins H e)) as X.
    assert (Y : 1 - Z.b2z (in_block P b v) = 0).
    { apply (X (fun v _ => ltac:(cbv beta; destruct (in_block P b v); simpl; lia)) Z0 v Hv). }
    apply in_block_true. destruct (in_block P b v); [reflexivity|simpl in Y; lia].
  - intros A. apply sumZ_ext. intros v Hv. replace (in_block P b v) with true; [reflexivity|]. symmetry. apply in_block_true, A, Hv.
Qed.

Section Edge.
Variables (H : hypergraph) (k : nat) (P0 : partition) (t : tracker) (s : phg).
Hypothesis A : after_round H k P0 t s.
Variables (e i : nat) (m : rmove).
Hypothesis (He : In e (edges H)) (Ei : nth_error (t_order t) i = Some (Some m)) (Hu : In (r_node m) (pins H e)).

Let WF := ar_wf H k P0 t s A.
Let RO := ar_round H k P0 t s A.
Let id := t_first t + Z.of_nat i.
Let P := at_time P0 t i.
Let u := r_node m.

Lemma m_id : move_of t u = Some (id, m).
Proof. apply move_of_idx; [exact Ei|]. destruct (ro_valid H k P0 t RO i m Ei) as (_ & _ & _ & _ & X). exact X. Qed.
Lemma m_ft : r_from m <> r_to m.
Proof. destruct (ro_valid H k P0 t RO i m Ei) as (_ & _ & X & _). exact X. Qed.
Lemma m_tok : (r_to m < k)%nat.
Proof. destruct (ro_valid H k P0 t RO i m Ei) as (_ & _ & _ & X & _). exact X. Qed.
Lemma P_u : P u = Some (r_from m).
Proof. apply (prefix_all_valid H k P0 t i m RO Ei). Qed.
Lemma pins_node v : In v (pins H e) -> In v (nodes H).
Proof. apply (wf_pins_nodes H WF e v He). Qed.
Lemma id_bounds : 0 < id < MAXID.
Proof.
  pose proof (ro_first H k P0 t RO). pose proof (ro_ids H k P0 t RO). assert (i < numMoves t)%nat by (unfold numMoves; apply nth_error_Some; congruence).
  unfold id. lia.
Qed.
Lemma P_assigned : pins_assigned H P k e.
Proof. intros v Hv. apply (at_complete H k P0 t i RO (ar_complete H k P0 t s A)). apply pins_node, Hv. Qed.
Lemma nodup_pins : NoDup (pins H e). Proof. apply (wf_pins_nodup H WF e He). Qed.
Lemma same_id v id' m' : In v (pins H e) -> move_of t v = Some (id', m') -> v <> u -> id' <> id.
Proof.
  intros Hv E Hne Eid. destruct (move_of_facts H k P0 t v id' m' RO E) as (j & Hj & Ej & Enj & Hn & _).
  assert (j = i) by (unfold id in Eid; lia). subst j. rewrite Ei in Enj. injection Enj as <-. apply Hne. symmetry. exact Hn.
Qed.
Lemma P_spec v b : P v = Some b <-> match move_of t v with
  | Some (id', m') => (id' < id /\ r_to m' = b) \/ (id <= id' /\ r_from m' = b) | None => P0 v = Some b end.
Proof.
  unfold P, at_time. fold id. destruct (move_of t v) as [[id' m']|]; [|tauto].
  destruct (Z.ltb_spec id' id); split; intros X; try (injection X as <-); try (left; split; [lia|reflexivity]); try (right; split; [lia|reflexivity]);
    destruct X as [[X1 <-]|[X1 <-]]; try reflexivity; lia.
Qed.

(** Number of pins remaining in the source / target block at the time of the move. *)
Lemma pc_from_one : (pin_count H P e (r_from m) =? 1) = true <-> forall v, In v (pins H e) -> v <> u -> P v <> Some (r_from m).
Proof.
  rewrite Z.eqb_eq.
  pose proof (pc_move H k P u (r_from m) (r_to m) e nodup_pins Hu P_u m_ft m_tok (r_from m)) as X.
  rewrite Nat.eqb_refl in X. replace (Nat.eqb (r_from m) (r_to m)) with false in X by (symmetry; apply Nat.eqb_neq, m_ft).
  cbn [Z.b2z] in X. split.
  - intros E v Hv Hne Hb. rewrite E in X. assert (Z0 : pin_count H (move P u (r_to m)) e (r_from m) = 0) by lia.
    rewrite pin_zero_iff in Z0. apply (Z0 v Hv). unfold move. rewrite upd_other by exact Hne. exact Hb.
  - intros N. assert (Z0 : pin_count H (move P u (r_to m)) e (r_from m) = 0); [|lia]. apply pin_zero_iff. intros v Hv.
    unfold move, upd. destruct (Nat.eqb_spec v u) as [->|Hne]; [|apply N; assumption]. intros X'. injection X' as X'. apply m_ft. symmetry. exact X'.
Qed.
Lemma pc_to_full : (pin_count H P e (r_to m) + 1 =? esize H e) = true <-> forall v, In v (pins H e) -> v <> u -> P v = Some (r_to m).
Proof.
  rewrite Z.eqb_eq.
  pose proof (pc_move H k P u (r_from m) (r_to m) e nodup_pins Hu P_u m_ft m_tok (r_to m)) as X.
  rewrite Nat.eqb_refl in X. replace (Nat.eqb (r_to m) (r_from m)) with false in X by (symmetry; apply Nat.eqb_neq, not_eq_sym, m_ft).
  cbn [Z.b2z] in X. rewrite Z.sub_0_r in X. rewrite <- X, pin_full_iff. split.
  - intros F v Hv Hne. specialize (F v Hv). unfold move in F. rewrite upd_other in F by exact Hne. exact F.
  - intros F v Hv. unfold move, upd. destruct (Nat.eqb_spec v u) as [->|Hne]; [reflexivity|apply F; assumption].
Qed.

Variable r : nat -> kdata.
Hypothesis Hr : forall b, r b = kzero.
Variable rc : nat -> cdata.
Hypothesis Hrc : forall b, rc b = czero.
Notation kr := (collect km1_rollback t s (pins H e) r).
Notation cr := (collect cut_rollback t s (pins H e) rc).

Lemma remaining_zero b : (remaining (kr b) =? 0) = true <-> forall v, In v (pins H e) -> move_of t v = None -> P0 v <> Some b.
Proof.
  rewrite Z.eqb_eq, kc_remaining, Hr. cbn [kzero remaining]. rewrite Z.add_0_l. split.
  - intros E v Hv En Hb. pose proof (sumZ_eq0 (fun v => Z.b2z (nonmoved_in t s b v)) (pins H e)) as X.
    assert (Y : Z.b2z (nonmoved_in t s b v) = 0).
    { apply (X (fun v _ => ltac:(cbv beta; destruct (nonmoved_in t s b v); simpl; lia)) E v Hv). }
    unfold nonmoved_in in Y. rewrite En in Y. assert (in_block (part s) b v = true).
    { apply in_block_true. rewrite (ar_final H k P0 t s v A (pins_node v Hv)), En. exact Hb. }
    rewrite H0 in Y. discriminate.
  - intros N. apply sumZ_zero. intros v Hv. unfold nonmoved_in. destruct (move_of t v) eqn:En; [reflexivity|].
    replace (in_block (part s) b v) with false; [reflexivity|]. symmetry. apply in_block_false.
    rewrite (ar_final H k P0 t s v A (pins_node v Hv)), En. apply N; assumption.
Qed.

Lemma k_benefit_exact w size pcn : k_benefit w size pcn id m kr = Z.b2z (pin_count H P e (r_from m) =? 1) * w.
Proof.
  unfold k_benefit. f_equal. f_equal. apply eq_true_iff_eq. rewrite pc_from_one, !andb_true_iff, remaining_zero, Z.ltb_lt, Z.eqb_eq.
  pose proof (kc_first_in t s (pins H e) r (r_from m) id) as F. rewrite Hr in F. cbn [kzero first_in] in F.
  pose proof (kc_last_out t s (pins H e) r (r_from m) id) as L0. rewrite Hr in L0. cbn [kzero last_out] in L0.
  pose proof (kc_last_out t s (pins H e) r (r_from m) (id + 1)) as L1. rewrite Hr in L1. cbn [kzero last_out] in L1.
  pose proof id_bounds as IB. split.
  - intros [[X1 X2] X3] v Hv Hne Hb. apply P_spec in Hb. destruct F as [F _]. specialize (F X2). destruct F as [_ F].
    destruct L1 as [L1 _]. destruct L1 as [_ L1]; [lia|]. destruct (move_of t v) as [[id' m']|] eqn:E.
    + destruct Hb as [[Y1 Y2]|[Y1 Y2]].
      * specialize (F v id' m' Hv E Y2). lia.
      * specialize (L1 v id' m' Hv E Y2). pose proof (same_id v id' m' Hv E Hne). lia.
    + apply (X3 v Hv E Hb).
  - intros N. split; [split|].
    + assert (U : ~ last_out (kr (r_from m)) < id).
      { intros X. apply L0 in X. destruct X as [_ X]. specialize (X u id m Hu m_id eq_refl). lia. }
      assert (last_out (kr (r_from m)) < id + 1); [|lia]. apply L1. split; [lia|]. intros v id' m' Hv E Ef.
      destruct (Z_lt_le_dec id' (id + 1)) as [|Hge]; [assumption|]. exfalso.
      assert (v <> u) by (intros ->; rewrite m_id in E; injection E as <- <-; lia).
      apply (N v Hv); [assumption|]. apply P_spec. rewrite E. right. split; [lia|exact Ef].
    + apply F. split; [lia|]. intros v id' m' Hv E Et. destruct (Z_lt_le_dec id id') as [|Hle]; [assumption|]. exfalso.
      assert (Hne : v <> u).
      { intros ->. rewrite m_id in E. injection E as <- <-. apply m_ft. symmetry. exact Et. }
      pose proof (same_id v id' m' Hv E Hne). apply (N v Hv Hne). apply P_spec. rewrite E. left. split; [lia|exact Et].
    + intros v Hv En Hb. assert (Hne : v <> u) by (intros ->; rewrite m_id in En; discriminate).
      apply (N v Hv Hne). apply P_spec. rewrite En. exact Hb.
Qed.

Lemma k_penalty_exact w size pcn : k_penalty w size pcn id m kr = Z.b2z (pin_count H P e (r_to m) =? 0) * w.
Proof.
  unfold k_penalty. f_equal. f_equal. apply eq_true_iff_eq. rewrite (Z.eqb_eq _ 0), pin_zero_iff, !andb_true_iff, remaining_zero, Z.ltb_lt, Z.eqb_eq.
  pose proof (kc_first_in t s (pins H e) r (r_to m) id) as F. rewrite Hr in F. cbn [kzero first_in] in F.
  pose proof (kc_first_in t s (pins H e) r (r_to m) (id - 1)) as F1. rewrite Hr in F1. cbn [kzero first_in] in F1.
  pose proof (kc_last_out t s (pins H e) r (r_to m) id) as L0. rewrite Hr in L0. cbn [kzero last_out] in L0.
  pose proof id_bounds as IB. split.
  - intros [[X1 X2] X3] v Hv Hb. apply P_spec in Hb. destruct F1 as [F1 _]. destruct F1 as [_ F1]; [lia|].
    destruct L0 as [L0 _]. destruct (L0 X2) as [_ L]. destruct (move_of t v) as [[id' m']|] eqn:E.
    + destruct Hb as [[Y1 Y2]|[Y1 Y2]].
      * specialize (F1 v id' m' Hv E Y2). lia.
      * specialize (L v id' m' Hv E Y2). lia.
    + apply (X3 v Hv E Hb).
  - intros N. split; [split|].
    + assert (U : ~ id < first_in (kr (r_to m))).
      { intros X. apply F in X. destruct X as [_ X]. specialize (X u id m Hu m_id eq_refl). lia. }
      assert (id - 1 < first_in (kr (r_to m))); [|lia]. apply F1. split; [lia|]. intros v id' m' Hv E Et.
      destruct (Z_lt_le_dec (id - 1) id') as [|Hge]; [assumption|]. exfalso.
      apply (N v Hv). apply P_spec. rewrite E. left. split; [lia|exact Et].
    + apply L0. split; [lia|]. intros v id' m' Hv E Ef. destruct (Z_lt_le_dec id' id) as [|Hle]; [assumption|]. exfalso.
      apply (N v Hv). apply P_spec. rewrite E. right. split; [lia|exact Ef].
    + intros v Hv En Hb. apply (N v Hv). apply P_spec. rewrite En. exact Hb.
Qed.

(** pinCountInPart(e, b) + moved_out(b) counts the pins that touch block b at some time. *)
Lemma potentially_full b : (b < k)%nat -> (pinCountInPart s e b + moved_out (cr b) =? esize H e) = true <->
  forall v, In v (pins H e) -> match move_of t v with Some (_, m') => r_from m' = b \/ r_to m' = b | None => P0 v = Some b end.
Proof.
  intros Hb. rewrite Z.eqb_eq, cc_moved_out, Hrc. cbn [czero moved_out]. unfold pinCountInPart.
  rewrite (c_pc H s (ar_cons H k P0 t s A) e b He) by (rewrite (ar_k H k P0 t s A); exact Hb).
  rewrite pin_count_sum, Z.add_0_l, <- sumZ_plus. unfold esize. rewrite sumZ_length.
  assert (B : forall v, In v (pins H e) -> 0 <= 1 - (Z.b2z (in_block (part s) b v) + Z.b2z (moved_from t b v)) /\
     (1 - (Z.b2z (in_block (part s) b v) + Z.b2z (moved_from t b v)) = 0 <->
      match move_of t v with Some (_, m') => r_from m' = b \/ r_to m' = b | None => P0 v = Some b end)).
  { intros v Hv. unfold in_block. rewrite (ar_final H k P0 t s v A (pins_node v Hv)). unfold moved_from.
    destruct (move_of t v) as [[id' m']|] eqn:E.
    - destruct (move_of_facts H k P0 t v id' m' RO E) as (j & _ & _ & _ & _ & _ & X & _).
      destruct (Nat.eqb_spec (r_to m') b), (Nat.eqb_spec (r_from m') b); cbn [Z.b2z]; try congruence; split; try lia; split; try tauto; intros; try lia.
    - destruct (P0 v) as [c|]; [|cbn [Z.b2z]; split; [lia|split; [lia|discriminate]]].
      destruct (Nat.eqb_spec c b); cbn [Z.b2z]; split; try lia; split; try lia; congruence. }
  split.
  - intros E v Hv. apply (B v Hv).
    apply (sumZ_eq0 (fun v => 1 - (Z.b2z (in_block (part s) b v) + Z.b2z (moved_from t b v))) (pins H e)); [intros; apply B; assumption| |exact Hv].
    rewrite sumZ_minus, E. lia.
  - intros F. apply sumZ_ext. intros v Hv. destruct (B v Hv) as [_ X]. apply X in F; [lia|exact Hv].
Qed.

Lemma c_benefit_exact w : c_benefit w (esize H e) (pinCountInPart s e) id m cr = Z.b2z (pin_count H P e (r_to m) + 1 =? esize H e) * w.
Proof.
  unfold c_benefit. f_equal. f_equal. apply eq_true_iff_eq. rewrite pc_to_full, !andb_true_iff, (potentially_full _ m_tok), Z.ltb_lt, Z.eqb_eq.
  pose proof (cc_first_out t s (pins H e) rc (r_to m) id) as F. rewrite Hrc in F. cbn [czero first_out] in F.
  pose proof (cc_last_in t s (pins H e) rc (r_to m) id) as L0. rewrite Hrc in L0. cbn [czero last_in] in L0.
  pose proof (cc_last_in t s (pins H e) rc (r_to m) (id + 1)) as L1. rewrite Hrc in L1. cbn [czero last_in] in L1.
  pose proof id_bounds as IB. split.
  - intros [X1 [X2 X3]] v Hv Hne. apply P_spec. specialize (X1 v Hv). destruct (move_of t v) as [[id' m']|] eqn:E; [|exact X1].
    destruct F as [F _]. destruct (F X3) as [_ F']. destruct L1 as [L1 _]. destruct L1 as [_ L1]; [lia|].
    destruct X1 as [X1|X1].
    + right. specialize (F' v id' m' Hv E X1). split; [lia|exact X1].
    + left. specialize (L1 v id' m' Hv E X1). pose proof (same_id v id' m' Hv E Hne). split; [lia|exact X1].
  - intros N. assert (NP : forall v id' m', In v (pins H e) -> move_of t v = Some (id', m') -> v <> u ->
        (id' < id /\ r_to m' = r_to m) \/ (id < id' /\ r_from m' = r_to m)).
    { intros v id' m' Hv E Hne. specialize (N v Hv Hne). apply P_spec in N. rewrite E in N. pose proof (same_id v id' m' Hv E Hne).
      destruct N as [N|N]; [left; exact N|right; split; [lia|tauto]]. }
    split; [|split].
    + intros v Hv. destruct (Nat.eq_dec v u) as [->|Hne]; [rewrite m_id; right; reflexivity|].
      specialize (N v Hv Hne). apply P_spec in N. destruct (move_of t v) as [[id' m']|]; tauto.
    + assert (U : ~ last_in (cr (r_to m)) < id).
      { intros X. apply L0 in X. destruct X as [_ X]. specialize (X u id m Hu m_id eq_refl). lia. }
      assert (last_in (cr (r_to m)) < id + 1); [|lia]. apply L1. split; [lia|]. intros v id' m' Hv E Et.
      destruct (Nat.eq_dec v u) as [->|Hne]; [rewrite m_id in E; injection E as <- <-; lia|].
      destruct (NP v id' m' Hv E Hne) as [X|[X1 X2]]; [lia|].
      destruct (move_of_facts H k P0 t v id' m' RO E) as (j & _ & _ & _ & _ & _ & X & _). congruence.
    + apply F. split; [lia|]. intros v id' m' Hv E Ef.
      destruct (Nat.eq_dec v u) as [->|Hne]; [rewrite m_id in E; injection E as <- <-; exfalso; apply m_ft; exact Ef|].
      destruct (NP v id' m' Hv E Hne) as [[X1 X2]|X]; [|lia].
      destruct (move_of_facts H k P0 t v id' m' RO E) as (j & _ & _ & _ & _ & _ & X & _). congruence.
Qed.

Lemma m_fromk : (r_from m < k)%nat.
Proof. destruct (P_assigned u Hu) as (b & Hb & Hk). rewrite P_u in Hb. injection Hb as ->. exact Hk. Qed.

Lemma c_penalty_exact w : c_penalty w (esize H e) (pinCountInPart s e) id m cr = Z.b2z (pin_count H P e (r_from m) =? esize H e) * w.
Proof.
  unfold c_penalty. f_equal. f_equal. apply eq_true_iff_eq.
  rewrite (Z.eqb_eq (pin_count H P e (r_from m))), pin_full_iff, !andb_true_iff, (potentially_full _ m_fromk), Z.ltb_lt, Z.eqb_eq.
  pose proof (cc_first_out t s (pins H e) rc (r_from m) id) as F. rewrite Hrc in F. cbn [czero first_out] in F.
  pose proof (cc_first_out t s (pins H e) rc (r_from m) (id - 1)) as F1. rewrite Hrc in F1. cbn [czero first_out] in F1.
  pose proof (cc_last_in t s (pins H e) rc (r_from m) id) as L0. rewrite Hrc in L0. cbn [czero last_in] in L0.
  pose proof id_bounds as IB. split.
  - intros [X1 [X2 X3]] v Hv. apply P_spec. specialize (X1 v Hv). destruct (move_of t v) as [[id' m']|] eqn:E; [|exact X1].
    destruct F1 as [F1 _]. destruct F1 as [_ F1]; [lia|]. destruct L0 as [L0 _]. destruct (L0 X3) as [_ L].
    destruct X1 as [X1|X1].
    + right. specialize (F1 v id' m' Hv E X1). split; [lia|exact X1].
    + left. specialize (L v id' m' Hv E X1). split; [lia|exact X1].
  - intros N. assert (NP : forall v id' m', In v (pins H e) -> move_of t v = Some (id', m') ->
        (id' < id /\ r_to m' = r_from m) \/ (id <= id' /\ r_from m' = r_from m)).
    { intros v id' m' Hv E. specialize (N v Hv). apply P_spec in N. rewrite E in N. exact N. }
    split; [|split].
    + intros v Hv. specialize (N v Hv). apply P_spec in N. destruct (move_of t v) as [[id' m']|]; tauto.
    + assert (U : ~ id < first_out (cr (r_from m))).
      { intros X. apply F in X. destruct X as [_ X]. specialize (X u id m Hu m_id eq_refl). lia. }
      assert (id - 1 < first_out (cr (r_from m))); [|lia]. apply F1. split; [lia|]. intros v id' m' Hv E Ef.
      destruct (NP v id' m' Hv E) as [[X1 X2]|X]; [|lia].
      destruct (move_of_facts H k P0 t v id' m' RO E) as (j & _ & _ & _ & _ & _ & X & _). congruence.
    + apply L0. split; [lia|]. intros v id' m' Hv E Et.
      destruct (NP v id' m' Hv E) as [X|[X1 X2]]; [lia|].
      destruct (move_of_facts H k P0 t v id' m' RO E) as (j & _ & _ & _ & _ & _ & X & _). congruence.
Qed.

Hypothesis Hw : 0 <= ew H e.
Lemma pos_b2z b w : 0 <= w -> pos (Z.b2z b * w) = Z.b2z b * w.
Proof. intros. unfold pos. destruct b; cbn [Z.b2z]; destruct (0 <? _) eqn:E; lia. Qed.

Lemma edge_view_P i' (f : hypergraph -> partition -> nat -> Z) : (i' <= numMoves t)%nat ->
  (forall P Q e, (forall v, In v (pins H e) -> P v = Q v) -> f H P e = f H Q e) ->
  f H (prefix P0 t i') e = f H (at_time P0 t i') e.
Proof. intros Hi Hext. apply Hext. intros v _. apply (prefix_at H k P0 t i' RO Hi). Qed.

Lemma i_lt : (i < numMoves t)%nat. Proof. unfold numMoves; apply nth_error_Some; congruence. Qed.

Lemma next_P (f : hypergraph -> partition -> nat -> Z) :
  (forall P Q e, (forall v, In v (pins H e) -> P v = Q v) -> f H P e = f H Q e) ->
  f H (prefix P0 t (S i)) e = f H (move P u (r_to m)) e.
Proof.
  intros Hext. rewrite (prefix_S P0 t i (Some m) Ei). apply Hext. intros v _. unfold move, upd. fold u.
  destruct (Nat.eqb v u); [reflexivity|]. apply (prefix_at H k P0 t i RO). pose proof i_lt. lia.
Qed.

Lemma km1_edge_exact :
  pos (k_benefit (ew H e) (esize H e) (pinCountInPart s e) id m kr) - pos (k_penalty (ew H e) (esize H e) (pinCountInPart s e) id m kr) =
  km1_edge H (prefix P0 t i) e - km1_edge H (prefix P0 t (S i)) e.
Proof.
  rewrite k_benefit_exact, k_penalty_exact, !pos_b2z by exact Hw.
  rewrite (next_P km1_edge (km1_edge_ext H)), (edge_view_P i km1_edge) by (try apply km1_edge_ext; pose proof i_lt; lia). fold P.
  pose proof (km1_edge_gain H k P u (r_from m) (r_to m) e nodup_pins Hu P_u m_ft m_tok P_assigned) as G.
  unfold km1_gain_of in G. cbn [su_he su_from su_to su_weight su_size su_from_after su_to_after] in G.
  destruct (Z.eqb_spec (pin_count H P e (r_to m) + 1) 1), (Z.eqb_spec (pin_count H P e (r_from m) - 1) 0),
    (Z.eqb_spec (pin_count H P e (r_to m)) 0), (Z.eqb_spec (pin_count H P e (r_from m)) 1); cbn [Z.b2z] in *; lia.
Qed.

Lemma cut_edge_exact :
  pos (c_benefit (ew H e) (esize H e) (pinCountInPart s e) id m cr) - pos (c_penalty (ew H e) (esize H e) (pinCountInPart s e) id m cr) =
  cut_edge H (prefix P0 t i) e - cut_edge H (prefix P0 t (S i)) e.
Proof.
  rewrite c_benefit_exact, c_penalty_exact, !pos_b2z by exact Hw.
  rewrite (next_P cut_edge (cut_edge_ext H)), (edge_view_P i cut_edge) by (try apply cut_edge_ext; pose proof i_lt; lia). fold P.
  pose proof (cut_edge_gain H k P u (r_from m) (r_to m) e nodup_pins Hu P_u m_ft m_tok P_assigned) as G.
  unfold cut_gain_of in G. cbn [su_he su_from su_to su_weight su_size su_from_after su_to_after] in G.
  assert (X1 : 0 < pin_count H P e (r_from m)) by (apply pin_count_pos_iff; exists u; split; [exact Hu|apply P_u]).
  pose proof (pin_count_nonneg H P e (r_to m)). pose proof (two_pin_counts H P e (r_from m) (r_to m) m_ft).
  destruct (Z.ltb_spec 1 (esize H e)), (Z.eqb_spec (pin_count H P e (r_from m) - 1) (esize H e - 1)), (Z.eqb_spec (pin_count H P e (r_to m) + 1) (esize H e)),
    (Z.eqb_spec (pin_count H P e (r_from m)) (esize H e)); cbn [Z.b2z] in *; lia.
Qed.

Variable rs : nat -> cdata * kdata.
Hypothesis Hrs : forall b, rs b = (rc b, r b).
Notation sr := (collect soed_rollback t s (pins H e) rs).
Lemma soed_edge_exact :
  pos (s_benefit (ew H e) (esize H e) (pinCountInPart s e) id m sr) - pos (s_penalty (ew H e) (esize H e) (pinCountInPart s e) id m sr) =
  soed_edge H (prefix P0 t i) e - soed_edge H (prefix P0 t (S i)) e.
Proof.
  assert (S1 : s_benefit (ew H e) (esize H e) (pinCountInPart s e) id m sr =
     k_benefit (ew H e) (esize H e) (pinCountInPart s e) id m kr + c_benefit (ew H e) (esize H e) (pinCountInPart s e) id m cr).
  { unfold s_benefit, k_benefit, c_benefit. rewrite !(sc_split t s (pins H e) rs rc r Hrs). reflexivity. }
  assert (S2 : s_penalty (ew H e) (esize H e) (pinCountInPart s e) id m sr =
     k_penalty (ew H e) (esize H e) (pinCountInPart s e) id m kr + c_penalty (ew H e) (esize H e) (pinCountInPart s e) id m cr).
  { unfold s_penalty, k_penalty, c_penalty. rewrite !(sc_split t s (pins H e) rs rc r Hrs). reflexivity. }
  rewrite S1, S2. pose proof km1_edge_exact as E1. pose proof cut_edge_exact as E2.
  assert (N : forall b w, 0 <= w -> 0 <= Z.b2z b * w) by (intros [] w X; cbn [Z.b2z]; lia).
  assert (PA : forall x y, 0 <= x -> 0 <= y -> pos (x + y) = pos x + pos y).
  { intros x y X Y. unfold pos. destruct (Z.ltb_spec 0 x), (Z.ltb_spec 0 y), (Z.ltb_spec 0 (x + y)); lia. }
  rewrite PA by (unfold k_benefit, c_benefit; apply N, Hw). rewrite PA by (unfold k_penalty, c_penalty; apply N, Hw).
  assert (Hne : pins H e <> []) by (intros X; pose proof Hu as Y; rewrite X in Y; destruct Y).
  assert (HA : forall j, (j <= numMoves t)%nat -> pins_assigned H (prefix P0 t j) k e).
  { intros j Hj v Hv. rewrite (prefix_at H k P0 t j RO Hj). apply (at_complete H k P0 t j RO (ar_complete H k P0 t s A)), pins_node, Hv. }
  pose proof i_lt.
  rewrite (soed_edge_split H (prefix P0 t i) k e (HA i ltac:(lia)) Hne), (soed_edge_split H (prefix P0 t (S i)) k e (HA (S i) ltac:(lia)) Hne).
  lia.
Qed.
End Edge.

(** ---- summation over the hyperedges ---- *)
Definition exact_policy (R : rb_policy) (f : hypergraph -> partition -> nat -> Z) : Prop :=
  forall H k P0 t s e i m r, after_round H k P0 t s -> In e (edges H) -> nth_error (t_order t) i = Some (Some m) -> In (r_node m) (pins H e) ->
  0 <= ew H e -> clean R r ->
  pos (rb_benefit R (ew H e) (esize H e) (pinCountInPart s e) (t_first t + Z.of_nat i) m (collect R t s (pins H e) r)) -
  pos (rb_penalty R (ew H e) (esize H e) (pinCountInPart s e) (t_first t + Z.of_nat i) m (collect R t s (pins H e) r)) =
  f H (prefix P0 t i) e - f H (prefix P0 t (S i)) e.

Lemma km1_exact_policy : exact_policy km1_rollback km1_edge.
Proof. intros H k P0 t s e i m r A He Ei Hu Hw Hc. eapply (km1_edge_exact H k P0 t s A e i m He Ei Hu r Hc (fun _ => czero)); auto. Qed.
Lemma cut_exact_policy : exact_policy cut_rollback cut_edge.
Proof. intros H k P0 t s e i m r A He Ei Hu Hw Hc. eapply (cut_edge_exact H k P0 t s A e i m He Ei Hu (fun _ => kzero)); auto. Qed.
Lemma soed_exact_policy : exact_policy soed_rollback soed_edge.
Proof.
  intros H k P0 t s e i m r A He Ei Hu Hw Hc. apply (soed_edge_exact H k P0 t s A e i m He Ei Hu (fun _ => kzero) (fun _ => eq_refl) (fun _ => czero) (fun _ => eq_refl) Hw).
  exact Hc.
Qed.

Section Total.
Variables (R : rb_policy) (f : hypergraph -> partition -> nat -> Z).
Hypothesis (EP : exact_policy R f) (LP : local_policy R)
  (Hext : forall H P Q e, (forall v, In v (pins H e) -> P v = Q v) -> f H P e = f H Q e).
Variables (H : hypergraph) (k : nat) (P0 : partition) (t : tracker) (s : phg).
Hypothesis A : after_round H k P0 t s.
Hypothesis Hw : forall e, In e (edges H) -> 0 <= ew H e.
Let RO := ar_round H k P0 t s A.

Definition diff (i e : nat) : Z := f H (prefix P0 t i) e - f H (prefix P0 t (S i)) e.

Lemma diff_zero i e : match nth_error (t_order t) i with Some (Some m) => ~ In (r_node m) (pins H e) | _ => True end -> diff i e = 0.
Proof.
  intros Hn. unfold diff. destruct (nth_error (t_order t) i) as [[m|]|] eqn:E.
  - rewrite (prefix_S P0 t i (Some m) E). rewrite (Hext H (move (prefix P0 t i) (r_node m) (r_to m)) (prefix P0 t i) e); [lia|].
    intros v Hv. unfold move. apply upd_other. intros ->. exact (Hn Hv).
  - rewrite (prefix_S P0 t i None E). lia.
  - apply nth_error_None in E. unfold prefix. rewrite !firstn_all2 by lia. lia.
Qed.

Lemma distribute_spec e r g : In e (edges H) -> clean R r -> forall i,
  distribute R H t s e (collect R t s (pins H e) r) g i = g i + diff i e.
Proof.
  intros He Hc i. unfold distribute. set (rr := collect R t s (pins H e) r).
  assert (G : forall l g', NoDup l -> incl l (pins H e) ->
     fold_left (distribute1 R H t s e rr) l g' i = g' i + match nth_error (t_order t) i with Some (Some m) => if mem (r_node m) l then diff i e else 0 | _ => 0 end).
  { induction l as [|a l IH]; intros g' Hnd Hin.
    - simpl. destruct (nth_error (t_order t) i) as [[m|]|]; lia.
    - cbn [fold_left]. inversion Hnd as [|? ? Ha Hnd']; subst. rewrite IH by (try assumption; intros x Hx; apply Hin; right; exact Hx).
      unfold distribute1. destruct (move_of t a) as [[id m']|] eqn:E.
      + destruct (move_of_facts H k P0 t a id m' RO E) as (j & Hj & -> & Enj & Hn & _).
        replace (Z.to_nat (t_first t + Z.of_nat j - t_first t)) with j by lia. cbv zeta.
        destruct (Nat.eq_dec i j) as [->|Hij].
        * rewrite Enj, !upd_same. rewrite Hn. replace (mem a l) with false by (symmetry; apply mem_false, Ha).
          assert (X : mem a (a :: l) = true) by (apply mem_In; left; reflexivity). rewrite X.
          assert (Ha2 : In (r_node m') (pins H e)) by (rewrite Hn; apply Hin; left; reflexivity).
          pose proof (EP H k P0 t s e j m' r A He Enj Ha2 (Hw e He) Hc) as Y. fold rr in Y. unfold diff, esize in *. lia.
        * rewrite !upd_other by exact Hij. f_equal. destruct (nth_error (t_order t) i) as [[m|]|] eqn:Eni; try reflexivity.
          replace (mem (r_node m) (a :: l)) with (mem (r_node m) l); [reflexivity|]. cbn [mem existsb].
          destruct (Nat.eqb_spec (r_node m) a) as [Ea|]; [|reflexivity]. exfalso.
          destruct (ro_valid H k P0 t RO i m Eni) as (_ & _ & _ & _ & X1). destruct (ro_valid H k P0 t RO j m' Enj) as (_ & _ & _ & _ & X2).
          rewrite Ea in X1. rewrite Hn in X2. lia.
      + f_equal. destruct (nth_error (t_order t) i) as [[m|]|] eqn:Eni; try reflexivity.
        replace (mem (r_node m) (a :: l)) with (mem (r_node m) l); [reflexivity|]. cbn [mem existsb].
        destruct (Nat.eqb_spec (r_node m) a) as [Ea|]; [|reflexivity]. exfalso.
        destruct (ro_valid H k P0 t RO i m Eni) as (_ & _ & _ & _ & X1). rewrite <- Ea, (move_of_idx t i m Eni X1) in E. discriminate. }
  rewrite G; [|apply (wf_pins_nodup H (ar_wf H k P0 t s A) e He)|apply incl_refl]. f_equal.
  pose proof (diff_zero i e) as D. destruct (nth_error (t_order t) i) as [[m|]|]; try (symmetry; apply D; exact I).
  destruct (mem_spec (r_node m) (pins H e)) as [|Hn]; [reflexivity|]. symmetry. apply D, Hn.
Qed.

Lemma touches_lt v b : In v (nodes H) -> touches t s v b -> (b < k)%nat.
Proof.
  intros Hv. unfold touches. destruct (move_of t v) as [[id m]|] eqn:E.
  - destruct (move_of_facts H k P0 t v id m RO E) as (j & _ & _ & _ & _ & X1 & _ & X3).
    destruct (ar_complete H k P0 t s A v Hv) as (c & Hc & Hk). intros [-> | ->]; [congruence|exact X3].
  - intros Hb. rewrite <- (ar_k H k P0 t s A). apply (c_part H s (ar_cons H k P0 t s A) v b Hb).
Qed.

Lemma recalc_spec sched : forall rs g, (forall j, clean R (rs j)) -> (forall x, In x sched -> In (snd x) (edges H)) ->
  let st' := fold_left (recalcEdge R H k t s) sched (rs, g) in
  (forall j, clean R (fst st' j)) /\ forall i, snd st' i = g i + sumZ (fun x => diff i (snd x)) sched.
Proof.
  induction sched as [|[j e] l IH]; intros rs g Hc Hin; cbn [fold_left].
  - simpl. split; [exact Hc|]. intros i. lia.
  - unfold recalcEdge at 2. cbn [fst snd].
    assert (He : In e (edges H)) by (apply (Hin (j, e)); left; reflexivity).
    specialize (IH (upd rs j (resetData R H k t s e (collect R t s (pins H e) (rs j))))
      (distribute R H t s e (collect R t s (pins H e) (rs j)) g)).
    destruct IH as [I1 I2].
    + intros j'. unfold upd. destruct (Nat.eqb_spec j' j) as [->|]; [|apply Hc]. apply edge_reset; [exact LP|apply Hc|].
      intros v b Hv. apply touches_lt. apply (wf_pins_nodes H (ar_wf H k P0 t s A) e v He Hv).
    + intros x Hx. apply Hin. right. exact Hx.
    + split; [exact I1|]. intros i. rewrite I2, distribute_spec by (try assumption; apply Hc). cbn [sumZ snd]. lia.
Qed.

(** [sched] processes each hyperedge at most once and none that contains a moved pin is left out. *)
Definition covers (sched : list (nat * nat)) : Prop :=
  NoDup (map snd sched) /\ incl (map snd sched) (edges H) /\
  forall e v, In e (edges H) -> In v (pins H e) -> move_of t v <> None -> In e (map snd sched).

Lemma recalc_total rs sched : (forall j, clean R (rs j)) -> covers sched ->
  let st' := recalculateGains R H k t s rs sched in
  (forall j, clean R (fst st' j)) /\
  forall i, snd st' i = sumZ (f H (prefix P0 t i)) (edges H) - sumZ (f H (prefix P0 t (S i))) (edges H).
Proof.
  intros Hc (C1 & C2 & C3). unfold recalculateGains.
  destruct (recalc_spec sched rs (fun _ => 0) Hc) as [I1 I2]; [intros x Hx; apply C2, in_map, Hx|].
  split; [exact I1|]. intros i. rewrite I2, Z.add_0_l, <- sumZ_minus. rewrite <- (sumZ_map (diff i) snd sched). fold (diff i).
  (* both sums only see hyperedges with a moved pin *)
  change (sumZ (fun x => f H (prefix P0 t i) x - f H (prefix P0 t (S i)) x) (edges H)) with (sumZ (diff i) (edges H)).
  assert (PF : Permutation (filter (fun e => mem e (map snd sched)) (edges H)) (map snd sched)).
  { apply NoDup_Permutation; [apply NoDup_filter_, (ar_wf H k P0 t s A)|exact C1|]. intros e. rewrite filter_In, mem_In. split; [tauto|]. intros X; split; [apply C2, X|exact X]. }
  rewrite <- (sumZ_perm (diff i) _ _ PF), sumZ_filter. apply sumZ_ext. intros e He.
  destruct (mem_spec e (map snd sched)) as [|Hn]; [reflexivity|]. symmetry. apply diff_zero.
  destruct (nth_error (t_order t) i) as [[m|]|] eqn:E; try exact I. intros Hv. apply Hn. apply (C3 e (r_node m) He Hv).
  destruct (ro_valid H k P0 t RO i m E) as (_ & _ & _ & _ & X). rewrite (move_of_idx t i m E X). discriminate.
Qed.
End Total.

(** C26: the recalculated gain of every move of a round is exactly the decrease of the objective caused by that
    move when the valid moves of the round are executed one after another; for all three objectives, whatever
    threads process the hyperedges in whatever order, and the thread-local scratch data is clean again afterwards
    (so the statement applies to the next round as well). *)
Theorem C26_recalculated_gains_exact : forall H k P0 t s sched, after_round H k P0 t s ->
  (forall e, In e (edges H) -> 0 <= ew H e) -> covers H t sched ->
  (forall rs, (forall j, clean km1_rollback (rs j)) -> let st' := recalculateGains km1_rollback H k t s rs sched in
     (forall j, clean km1_rollback (fst st' j)) /\ forall i, snd st' i = km1 H (prefix P0 t i) - km1 H (prefix P0 t (S i))) /\
  (forall rs, (forall j, clean cut_rollback (rs j)) -> let st' := recalculateGains cut_rollback H k t s rs sched in
     (forall j, clean cut_rollback (fst st' j)) /\ forall i, snd st' i = cut H (prefix P0 t i) - cut H (prefix P0 t (S i))) /\
  (forall rs, (forall j, clean soed_rollback (rs j)) -> let st' := recalculateGains soed_rollback H k t s rs sched in
     (forall j, clean soed_rollback (fst st' j)) /\ forall i, snd st' i = soed H (prefix P0 t i) - soed H (prefix P0 t (S i))).
Proof.
  intros H k P0 t s sched A Hw Hc. split; [|split]; intros rs Hrs.
  - exact (recalc_total km1_rollback km1_edge km1_exact_policy km1_local km1_edge_ext H k P0 t s A Hw rs sched Hrs Hc).
  - exact (recalc_total cut_rollback cut_edge cut_exact_policy cut_local cut_edge_ext H k P0 t s A Hw rs sched Hrs Hc).
  - exact (recalc_total soed_rollback soed_edge soed_exact_policy soed_local soed_edge_ext H k P0 t s A Hw rs sched Hrs Hc).
Qed.

(** ---- selection of the hyperedges, recalculateGains with iter_moves_on_recalc (global_rollback.cpp:370-383) ----
    Threads visit the incident hyperedges of moved nodes; per visit: load last_recalc_round[e], and if it is smaller
    than round, exchange it with round; the hyperedge is processed if the exchange returned the loaded value. *)
Record iter_st := mkIt { it_last : nat -> Z; it_th : nat -> option (nat * Z); it_done : list (nat * nat); it_seen : list nat }.
Inductive iter_lab := Load (i e : nat) | Exchange (i : nat).
Definition iter_step (round : Z) (st : iter_st) (l : iter_lab) : option iter_st :=
  match l with
  | Load i e =>
    match it_th st i with
    | Some _ => None
    | None => let x := it_last st e in
              Some (mkIt (it_last st) (if x <? round then upd (it_th st) i (Some (e, x)) else it_th st) (it_done st) (e :: it_seen st))
    end
  | Exchange i =>
    match it_th st i with
    | None => None
    | Some (e, x) => let old := it_last st e in
                     Some (mkIt (upd (it_last st) e round) (upd (it_th st) i None)
                                (if old =? x then it_done st ++ [(i, e)] else it_done st) (it_seen st))
    end
  end.
Definition iter_run (round : Z) := fold_opt (iter_step round).
Definition iter_init (last : nat -> Z) : iter_st := mkIt last (fun _ => None) [] [].

Definition iter_inv (round : Z) (last : nat -> Z) (st : iter_st) : Prop :=
  (forall e, it_last st e = if mem e (map snd (it_done st)) then round else last e) /\
  NoDup (map snd (it_done st)) /\
  (forall i e x, it_th st i = Some (e, x) -> x = last e /\ In e (it_seen st)) /\
  (forall e, In e (it_seen st) -> In e (map snd (it_done st)) \/ exists i x, it_th st i = Some (e, x)) /\
  incl (map snd (it_done st)) (it_seen st).

Lemma NoDup_app_ {X} (l1 l2 : list X) : NoDup l1 -> NoDup l2 -> (forall a, In a l1 -> ~ In a l2) -> NoDup (l1 ++ l2).
Proof.
  induction l1 as [|a l1 IH]; intros N1 N2 D; [exact N2|]. inversion N1 as [|? ? Ha N1']; subst. simpl. constructor.
  - rewrite in_app_iff. intros [X1|X1]; [exact (Ha X1)|]. exact (D a (or_introl eq_refl) X1).
  - apply IH; [exact N1'|exact N2|]. intros b Hb. apply D. right. exact Hb.
Qed.
Lemma mem_app a l1 l2 : mem a (l1 ++ l2) = mem a l1 || mem a l2.
Proof. unfold mem. apply existsb_app. Qed.

Lemma iter_inv_step round last st l st' : (forall e, last e < round) -> iter_inv round last st -> iter_step round st l = Some st' -> iter_inv round last st'.
Proof.
  intros HL (I1 & I2 & I3 & I4 & I5) E. destruct l as [i e|i]; simpl in E.
  - destruct (it_th st i) eqn:Et; [discriminate|]. injection E as <-.
    assert (Hx : it_last st e <? round = negb (mem e (map snd (it_done st)))).
    { rewrite I1. specialize (HL e). destruct (mem e _); simpl; lia. }
    unfold iter_inv. rewrite Hx. cbn [it_last it_th it_done it_seen]. split; [exact I1|]. split; [exact I2|]. split; [|split].
    + intros j e' x Hj. destruct (mem_spec e (map snd (it_done st))) as [Hm|Hm]; cbn [negb] in Hj.
      * destruct (I3 j e' x Hj). split; [assumption|right; assumption].
      * unfold upd in Hj. destruct (Nat.eqb_spec j i) as [->|]; [|destruct (I3 j e' x Hj); split; [assumption|right; assumption]].
        injection Hj as <- <-. split; [|left; reflexivity]. rewrite I1. apply mem_false in Hm. rewrite Hm. reflexivity.
    + intros e' [<-|He'].
      * destruct (mem_spec e (map snd (it_done st))) as [Hm|Hm]; [left; exact Hm|]. right. exists i, (it_last st e). apply upd_same.
      * destruct (I4 e' He') as [X|(j & x & X)]; [left; exact X|right]. exists j, x. destruct (negb _); [|exact X].
        unfold upd. destruct (Nat.eqb_spec j i) as [->|]; [congruence|exact X].
    + intros x Hx'. right. apply I5, Hx'.
  - destruct (it_th st i) as [[e x]|] eqn:Et; [|discriminate]. injection E as <-. destruct (I3 i e x Et) as [-> Hs].
    assert (Ho : (it_last st e =? last e) = negb (mem e (map snd (it_done st)))).
    { rewrite I1. specialize (HL e). destruct (mem e _); simpl; lia. }
    unfold iter_inv. rewrite Ho. cbn [it_last it_th it_done it_seen]. destruct (mem_spec e (map snd (it_done st))) as [Hm|Hm]; cbn [negb].
    + split; [|split; [exact I2|split; [|split; [|exact I5]]]].
      * intros e'. unfold upd. destruct (Nat.eqb_spec e' e) as [->|]; [|apply I1]. apply mem_In in Hm. rewrite Hm. reflexivity.
      * intros j e' x Hj. unfold upd in Hj. destruct (Nat.eqb j i); [discriminate|]. apply (I3 j e' x Hj).
      * intros e' He'. destruct (I4 e' He') as [X|(j & x & X)]; [left; exact X|].
        destruct (Nat.eq_dec j i) as [->|]; [left; congruence|]. right. exists j, x. rewrite upd_other; assumption.
    + rewrite map_app. cbn [map snd]. split; [|split; [|split; [|split]]].
      * intros e'. rewrite mem_app. unfold upd. destruct (Nat.eqb_spec e' e) as [->|Hne].
        -- assert (Y : mem e [e] = true) by (apply mem_In; left; reflexivity). rewrite Y, orb_true_r. reflexivity.
        -- rewrite I1. cbn [mem existsb]. replace (Nat.eqb e' e) with false by lia. rewrite ?orb_false_r. reflexivity.
      * apply NoDup_app_; [exact I2|constructor; [intros []|constructor]|]. intros a Ha [<-|[]]. exact (Hm Ha).
      * intros j e' x Hj. unfold upd in Hj. destruct (Nat.eqb j i); [discriminate|]. apply (I3 j e' x Hj).
      * intros e' He'. rewrite in_app_iff. destruct (I4 e' He') as [X|(j & x & X)]; [left; left; exact X|].
        destruct (Nat.eq_dec j i) as [->|]; [left; right; left; congruence|]. right. exists j, x. rewrite upd_other; assumption.
      * intros a Ha. apply in_app_iff in Ha. destruct Ha as [Ha|[<-|[]]]; [apply I5, Ha|exact Hs].
Qed.

(** In every interleaving of the visits, once all threads are through, the processed hyperedges are exactly the
    visited ones, each processed exactly once. *)
Theorem C26_each_hyperedge_once : forall round last l st, (forall e, last e < round) ->
  iter_run round (iter_init last) l = Some st -> (forall i, it_th st i = None) ->
  NoDup (map snd (it_done st)) /\ (forall e, In e (map snd (it_done st)) <-> In e (it_seen st)) /\
  (forall e, it_last st e < round + 1).
Proof.
  intros round last l st HL E Q.
  assert (I : iter_inv round last st).
  { revert E. apply (fold_opt_inv (iter_inv round last)).
    - intros s0 o s1 I0 E0. exact (iter_inv_step round last s0 o s1 HL I0 E0).
    - split; [reflexivity|]. split; [constructor|]. split; [discriminate|]. split; [intros e []|intros e []]. }
  destruct I as (I1 & I2 & I3 & I4 & I5). split; [exact I2|]. split.
  - intros e. split; [apply I5|]. intros Hs. destruct (I4 e Hs) as [X|(i & x & X)]; [exact X|]. rewrite Q in X. discriminate.
  - intros e. rewrite I1. specialize (HL e). destruct (mem e _); lia.
Qed.

(** If the visits are the incident hyperedges of the nodes moved in this round, the processed hyperedges satisfy the
    hypothesis [covers] of C26_recalculated_gains_exact. *)
Theorem C26_iteration_covers : forall H k P0 t s round last l st, after_round H k P0 t s -> (forall e, last e < round) ->
  iter_run round (iter_init last) l = Some st -> (forall i, it_th st i = None) ->
  (forall e, In e (it_seen st) <-> exists v, move_of t v <> None /\ In v (nodes H) /\ In e (inc H v)) ->
  covers H t (it_done st).
Proof.
  intros H k P0 t s round last l st A HL E Q HS. destruct (C26_each_hyperedge_once round last l st HL E Q) as (N & X & _).
  pose proof (ar_wf H k P0 t s A) as WF.
  split; [exact N|]. split.
  - intros e He. apply X, HS in He. destruct He as (v & _ & Hv & Hi). apply (wf_inc H WF v e Hv) in Hi. tauto.
  - intros e v He Hv Hm. apply X, HS. exists v. pose proof (wf_pins_nodes H WF e v He Hv) as Hn. split; [exact Hm|]. split; [exact Hn|].
    apply (wf_inc H WF v e Hn). tauto.
Qed.

(** Non-vacuity: a round with two valid moves (and one reverted one) on the example hypergraph. *)
Definition ex_P0 : partition := fun v => match v with 0 | 1 => Some 0%nat | 2 | 3 => Some 1%nat | _ => None end%nat.
Definition ex_t : tracker := mkT 5 [Some (mkRM 2 1 0); None; Some (mkRM 0 0 1)] (fun v => match v with 2%nat => 5 | 1%nat => 6 | 0%nat => 7 | _ => 1 end).
Definition ex_round_ops : list phg_op :=
  [OSetOnly 0 1; OSetOnly 1 0; OSetOnly 2 0; OSetOnly 3 1; OInit [[0;1];[2;3]] [2;0;1]]%nat.
Definition ex_round_state : phg := match phg_run exH (phg_init 2) ex_round_ops with Some s => s | None => phg_init 0 end.
Example ex_C26 : (exists s, after_round exH 2 ex_P0 ex_t s) /\ covers exH ex_t [(0,2);(1,0);(0,1)]%nat /\
  map (snd (recalculateGains km1_rollback exH 2 ex_t ex_round_state (fun _ _ => kzero) [(0,2);(1,0);(0,1)]%nat)) [0;1;2]%nat = [-1; 0; -1].
Proof.
  split; [|split].
  - exists ex_round_state.
    assert (X : phg_run exH (phg_init 2) ex_round_ops = Some ex_round_state).
    { unfold ex_round_state. assert (Y : match phg_run exH (phg_init 2) ex_round_ops with Some _ => true | None => false end = true) by (vm_compute; reflexivity).
      destruct (phg_run exH (phg_init 2) ex_round_ops); [reflexivity|discriminate]. }
    assert (M : mode_inv exH MLive ex_round_state /\ pk ex_round_state = 2%nat).
    { apply (history_inv exH ex_round_ops MEmpty MLive (phg_init 2) ex_round_state exH_wf); auto.
      - simpl. split; [apply only_ids_init|reflexivity].
      - assert (Pm : Permutation [2;0;1]%nat (edges exH)).
        { simpl. apply perm_trans with [0;2;1]%nat; [apply perm_swap|]. apply perm_skip, perm_swap. }
        repeat (apply Forall_cons; [try (simpl; tauto)|]); [|apply Forall_nil]. split; [apply Permutation_refl|exact Pm]. }
    constructor.
    + apply exH_wf.
    + constructor.
      * simpl. lia.
      * vm_compute. discriminate.
      * intros i m E. destruct i as [|[|[|i]]]; cbn [ex_t t_order nth_error] in E; try discriminate E.
        -- injection E as <-. cbn. repeat apply conj; try reflexivity; [tauto|discriminate|lia].
        -- injection E as <-. cbn. repeat apply conj; try reflexivity; [tauto|discriminate|lia].
        -- destruct i; discriminate E.
      * intros u id m E. destruct u as [|[|[|u]]].
        -- vm_compute in E. injection E as _ <-. reflexivity.
        -- vm_compute in E. discriminate E.
        -- vm_compute in E. injection E as _ <-. reflexivity.
        -- vm_compute in E. discriminate E.
    + intros v Hv. simpl in Hv. destruct Hv as [<-|[<-|[<-|[<-|[]]]]]; simpl; eexists; split; try reflexivity; lia.
    + exact (proj2 M).
    + exact (proj1 M).
    + intros v Hv. simpl in Hv. destruct Hv as [<-|[<-|[<-|[<-|[]]]]]; vm_compute; reflexivity.
  - split; [|split].
    + repeat constructor; simpl; intuition discriminate.
    + intros e He. simpl in *. tauto.
    + intros e v He _ _. simpl in *. tauto.
  - vm_compute. reflexivity.
Qed.
