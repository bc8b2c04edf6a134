(** DetReb.v - the deterministic rebalancer, mt-kahypar/partition/refinement/rebalancing/deterministic_rebalancer.cpp, for hypergraphs.
    The rating map of a node (block -> gain, in the order of insertion) and its isolated block gain are arbitrary functions of the
    partition; priorities are floats, ordered like integers (transformGain, cpp:53-61, never produces NaN); mayMoveNode and the
    deadzone are arbitrary functions of the block weights.  Streaming vectors are lists in any order, the sort is any sorted
    permutation, and the moves of all blocks are executed in any interleaving of changeNodePart (Conc.v).  Weights are unbounded
    integers. *)
From Coq Require Import FunctionalExtensionality.
From Verif Require ContractProofs.
From Verif Require Import RollbackProofs Base Spec SpecLemmas PHG PHGProofs Conc Objective GainCache Metrics PropsA Scan DetLP DetLPApply DetLP1 DetLPThms DetLPTotal DetCoarseThms.

(** RebalancingMove, deterministic_rebalancer.h:44-49, with the source block. *)
Record rmv := mkR { rn : nat; rf : nat; rt : nat; rp : Z }.
Definition tol (m : rmv) : lmv := mkL (rn m) (rf m) (rt m) 0.
(** cpp:45-47 *)
Definition rbefore (a b : rmv) : Prop := rp a < rp b \/ (rp a = rp b /\ (rn b < rn a)%nat).

Lemma pws_eq' H k s b : ready H k s -> (b < k)%nat -> pws k s b = block_weight H (part s) b.
Proof. intros [(_ & C & _) K] Hb. unfold pws. destruct (Nat.ltb_spec b k); [|lia]. unfold partWeight. rewrite (c_wt _ _ C) by lia. reflexivity. Qed.
Lemma pws_part' H k s s' : ready H k s -> ready H k s' -> part s = part s' -> pws k s = pws k s'.
Proof.
  intros A B E. apply functional_extensionality. intros b. destruct (Nat.ltb_spec b k) as [X|X]; [rewrite (pws_eq' H k s b A X), (pws_eq' H k s' b B X), E; reflexivity|].
  unfold pws. destruct (Nat.ltb_spec b k); [lia|reflexivity].
Qed.

(** cpp:189-194 *)
Fixpoint rtake (H : hypergraph) (imb sum : Z) (l : list rmv) : list rmv :=
  match l with
  | [] => []
  | m :: l' => if sum <? imb then m :: rtake H imb (sum + nw H (rn m)) l' else []
  end.
Definition rsum (H : hypergraph) (l : list rmv) : Z := sumZ (fun m => nw H (rn m)) l.
Lemma rtake_incl H imb : forall l sum m, In m (rtake H imb sum l) -> In m l.
Proof. induction l as [|a l IH]; intros sum m; cbn [rtake]; [auto|]. destruct (sum <? imb); [|intros []]. intros [<-|X]; [left; reflexivity|right; apply (IH _ _ X)]. Qed.
Lemma rtake_prefix H imb : forall l sum, exists l', l = rtake H imb sum l ++ l'.
Proof. induction l as [|a l IH]; intros sum; cbn [rtake]; [exists []; reflexivity|]. destruct (sum <? imb); [|exists (a :: l); reflexivity]. destruct (IH (sum + nw H (rn a))) as [l' E]. exists l'. cbn. congruence. Qed.
Lemma rtake_sum H imb : forall l sum, sum + rsum H (rtake H imb sum l) < imb -> rtake H imb sum l = l.
Proof.
  induction l as [|a l IH]; intros sum; cbn [rtake]; [reflexivity|]. destruct (Z.ltb_spec sum imb); [|unfold rsum; cbn; lia].
  unfold rsum. cbn [sumZ map fold_right]. intros X. f_equal. apply IH. unfold rsum. unfold sumZ in *. cbn in X. lia.
Qed.

Section DetReb.
Variables (H : hypergraph) (k : nat) (L dead : nat -> Z) (fixed : nat -> bool).
Variables (may : (nat -> Z) -> nat -> Z -> bool) (prio : Z -> Z -> Z).
Variables (scores : partition -> nat -> list (nat * Z)) (iso : partition -> nat -> Z).
Variable o : objective.
Local Notation w := (nw H).

(** isValidTarget, cpp:229-233 *)
Definition valid_target (pw : nat -> Z) (b : nat) (wu : Z) : bool := (pw b <? dead b) && (pw b + wu <=? L b).
(** computeGainAndTargetPart, cpp:113-158: the adjacent block with the best gain (the last one among several), otherwise the first
    non-adjacent valid block in cyclic order from hn % k. *)
Definition pick (pw : nat -> Z) (P : partition) (u : nat) : Z * option nat :=
  fold_left (fun (best : Z * option nat) en => if (snd en <=? fst best) && valid_target pw (fst en) (w u) then (snd en, Some (fst en)) else best)
    (scores P u) (iso P u, None).
Definition cyclic (u : nat) : list nat := map (fun i => Nat.modulo (Nat.modulo u k + i) k) (seq 0 k).
Definition target (pw : nat -> Z) (P : partition) (u : nat) : option (nat * Z) :=
  match pick pw P u with
  | (g, Some t) => Some (t, g)
  | (g, None) => match find (fun b => valid_target pw b (w u) && negb (mem b (map fst (scores P u)))) (cyclic u) with
                 | Some t => Some (t, g)
                 | None => None
                 end
  end.
(** cpp:166-178; _current_imbalance[from] is pw from - L from (updateImbalance, cpp:101-111); mayMoveNode, cpp:216-220. *)
Definition rcand (pw : nat -> Z) (hv : nat -> bool) (P : partition) (u : nat) : list rmv :=
  match P u with
  | Some from =>
    if (0 <? pw from - L from) && (may pw from (w u) || hv from) && negb (fixed u) then
      match target pw P u with
      | Some (t, g) => if Nat.eqb from t then [] else [mkR u from t (prio g (w u))]
      | None => []
      end
    else []
  | None => []
  end.
Definition rcands (pw : nat -> Z) (hv : nat -> bool) (P : partition) : list rmv := flat_map (rcand pw hv P) (nodes H).
(** weakRebalancingRound, cpp:160-209.  [hv] is _block_has_only_heavy_vertices. *)
Definition rmoves (pw : nat -> Z) (srt : nat -> list rmv) : list lmv :=
  flat_map (fun b => map tol (rtake H (pw b - L b) 0 (srt b))) (seq 0 k).
Definition heavy' (pw : nat -> Z) (hv : nat -> bool) (srt : nat -> list rmv) (b : nat) : bool :=
  if Nat.ltb b k then
    if isnil (srt b) then (if 0 <? pw b - L b then true else hv b)
    else negb (pw b - L b <=? rsum H (rtake H (pw b - L b) 0 (srt b)))
  else hv b.
Definition rsorted (pw : nat -> Z) (hv : nat -> bool) (P : partition) (srt : nat -> list rmv) : Prop :=
  forall b, (b < k)%nat -> Permutation (filter (fun m => Nat.eqb (rf m) b) (rcands pw hv P)) (srt b) /\ StronglySorted rbefore (srt b).
Definition rround (hv : nat -> bool) (s s' : phg) (g : Z) (hv' : nat -> bool) : Prop :=
  exists srt, rsorted (pws k s) hv (part s) srt /\ apply_all H o (rmoves (pws k s) srt) s s' g /\ hv' = heavy' (pws k s) hv srt.
(** refineImpl, cpp:63-98: at most [n] rounds; [r] rounds were executed.  The change of the quality is -g. *)
Inductive reb : nat -> (nat -> bool) -> phg -> phg -> Z -> (nat -> bool) -> nat -> Prop :=
| reb_balanced : forall n hv s, overl k L (pws k s) = 0%nat -> reb n hv s s 0 hv 0
| reb_limit : forall hv s, reb 0 hv s s 0 hv 0
| reb_round : forall n hv s s1 g1 hv1 s2 g2 hv2 r, overl k L (pws k s) <> 0%nat -> rround hv s s1 g1 hv1 -> reb n hv1 s1 s2 g2 hv2 r ->
    reb (S n) hv s s2 (g1 + g2) hv2 (S r).
(** cpp:78: det_max_rounds = 0 means the absolute limit of 30 rounds. *)
Definition max_rounds (d : nat) : nat := if Nat.eqb d 0 then 30 else Nat.min 30 d.

(** *** One round *)
Hypothesis SK : forall P u b g, In (b, g) (scores P u) -> (b < k)%nat.
Local Notation ready := (ready H k).

Lemma pick_spec pw P u g t : pick pw P u = (g, Some t) -> valid_target pw t (w u) = true /\ exists g', In (t, g') (scores P u).
Proof.
  unfold pick. set (f := fun best en => _).
  assert (X : forall l acc, (forall g0 t0, acc = (g0, Some t0) -> valid_target pw t0 (w u) = true /\ exists g', In (t0, g') (scores P u)) ->
     (forall en, In en l -> In en (scores P u)) -> forall g0 t0, fold_left f l acc = (g0, Some t0) -> valid_target pw t0 (w u) = true /\ exists g', In (t0, g') (scores P u)).
  { induction l as [|en l IH]; intros acc HA HL g0 t0; [apply HA|]. cbn [fold_left]. apply IH; [|intros; apply HL; right; assumption].
    intros g1 t1 E. unfold f in E. destruct ((snd en <=? fst acc) && valid_target pw (fst en) (w u)) eqn:B; [|apply (HA g1 t1 E)].
    inversion E; subst. apply andb_true_iff in B. split; [apply B|]. exists (snd en). destruct en; apply HL; left; reflexivity. }
  apply X; [discriminate|auto].
Qed.
Lemma target_spec pw P u t g : target pw P u = Some (t, g) -> (t < k)%nat /\ valid_target pw t (w u) = true.
Proof.
  unfold target. destruct (pick pw P u) as [g0 [t0|]] eqn:E.
  - intros X. inversion X; subst. destruct (pick_spec _ _ _ _ _ E) as [V [g' I]]. split; [apply (SK _ _ _ _ I)|exact V].
  - destruct (find _ (cyclic u)) as [t0|] eqn:F; [|discriminate]. intros X. inversion X; subst. apply find_some in F. destruct F as [I B].
    apply andb_true_iff in B. split; [|apply B]. unfold cyclic in I. apply in_map_iff in I. destruct I as (i & <- & Hi). apply in_seq in Hi. apply Nat.mod_upper_bound. lia.
Qed.
Lemma rcand_spec pw hv P u m : In m (rcand pw hv P u) ->
  rn m = u /\ P u = Some (rf m) /\ L (rf m) < pw (rf m) /\ fixed u = false /\ (rt m < k)%nat /\ rf m <> rt m /\ valid_target pw (rt m) (w u) = true.
Proof.
  unfold rcand. destruct (P u) as [from|]; [|intros []]. destruct ((0 <? pw from - L from) && (may pw from (w u) || hv from) && negb (fixed u)) eqn:B; [|intros []].
  destruct (target pw P u) as [[t g]|] eqn:T; [|intros []]. destruct (Nat.eqb_spec from t) as [E|N]; [intros []|]. intros [<-|[]]. cbn [rn rf rt rp].
  destruct (target_spec _ _ _ _ _ T) as [K V]. rewrite !andb_true_iff in B. destruct B as [[B1 _] B2]. apply Z.ltb_lt in B1. apply negb_true_iff in B2. repeat split; try assumption; lia.
Qed.
Lemma rcand_len pw hv P u : (length (rcand pw hv P u) <= 1)%nat.
Proof. unfold rcand. destruct (P u); [|cbn; lia]. destruct (_ && _); [|cbn; lia]. destruct (target pw P u) as [[t g]|]; [|cbn; lia]. destruct (Nat.eqb n t); cbn; lia. Qed.
Lemma rcands_nodup pw hv P : NoDup (nodes H) -> NoDup (map rn (rcands pw hv P)).
Proof.
  unfold rcands. generalize (nodes H). induction l as [|u l IH]; intros N; [constructor|]. inversion N as [|? ? Hn N']; subst. cbn [flat_map]. rewrite map_app.
  pose proof (rcand_len pw hv P u) as LN. destruct (rcand pw hv P u) as [|m [|m' l']] eqn:E; [apply IH; exact N'| |cbn in LN; lia].
  cbn [map app]. constructor; [|apply IH; exact N']. intros X. apply in_map_iff in X. destruct X as (x & Ex & Hx). apply in_flat_map in Hx. destruct Hx as (v & Hv & Hx).
  apply rcand_spec in Hx. assert (M : In m (rcand pw hv P u)) by (rewrite E; left; reflexivity). apply rcand_spec in M. destruct Hx as [X1 _], M as [M1 _]. apply Hn. congruence.
Qed.
(** Membership in the executed moves. *)
Lemma rmoves_in pw hv P srt m : rsorted pw hv P srt -> In m (rmoves pw srt) ->
  exists r u, m = tol r /\ In u (nodes H) /\ In r (rcand pw hv P u) /\ (rf r < k)%nat /\ In r (rtake H (pw (rf r) - L (rf r)) 0 (srt (rf r))).
Proof.
  intros S X. unfold rmoves in X. apply in_flat_map in X. destruct X as (b & Hb & X). apply in_seq in Hb. apply in_map_iff in X. destruct X as (r & <- & X).
  assert (Hb' : (b < k)%nat) by lia. destruct (S b Hb') as [Pm _].
  pose proof (Permutation_in r (Permutation_sym Pm) (rtake_incl _ _ _ _ _ X)) as Y. apply filter_In in Y. destruct Y as [Y E]. apply Nat.eqb_eq in E. subst b.
  unfold rcands in Y. apply in_flat_map in Y. destruct Y as (u & Hu & Y). exists r, u. repeat split; auto; lia.
Qed.
Lemma map_tol l : map ln (map tol l) = map rn l.
Proof. rewrite map_map. reflexivity. Qed.
Lemma rmoves_nodup pw hv P srt : NoDup (nodes H) -> rsorted pw hv P srt -> NoDup (map ln (rmoves pw srt)).
Proof.
  intros N S. pose proof (rcands_nodup pw hv P N) as ND.
  assert (INJ : forall r r', In r (rcands pw hv P) -> In r' (rcands pw hv P) -> rn r = rn r' -> r = r').
  { intros r r' A B E. clear - ND A B E. revert ND A B. generalize (rcands pw hv P). induction l as [|a l IH]; [intros _ []|]. cbn [map In]. intros ND A B. inversion ND as [|? ? Hn ND']; subst.
    destruct A as [->|A], B as [->|B]; [reflexivity| | |apply IH; assumption].
    - exfalso. apply Hn. rewrite E. apply in_map. exact B.
    - exfalso. apply Hn. rewrite <- E. apply in_map. exact A. }
  unfold rmoves. assert (HB : forall b, In b (seq 0 k) -> (b < k)%nat) by (intros b X; apply in_seq in X; lia).
  pose proof (seq_NoDup k 0) as SN. revert HB SN. generalize (seq 0 k). induction l as [|b l IH]; intros HB SN; [constructor|].
  inversion SN as [|? ? Hn SN']; subst. cbn [flat_map]. rewrite map_app, map_tol. apply NoDup_app_.
  - destruct (S b (HB b (or_introl eq_refl))) as [Pm _]. destruct (rtake_prefix H (pw b - L b) (srt b) 0) as [l' E].
    assert (NB : NoDup (map rn (srt b))). { eapply Permutation_NoDup; [apply Permutation_map; exact Pm|]. clear - ND. revert ND. generalize (rcands pw hv P). induction l as [|a l IH]; cbn; [auto|].
      intros ND. inversion ND as [|? ? Hn ND']; subst. destruct (Nat.eqb (rf a) b); [|apply IH; exact ND']. cbn. constructor; [|apply IH; exact ND'].
      intros X. apply Hn. apply in_map_iff in X. destruct X as (x & E & X). rewrite <- E. apply in_map. apply filter_In in X. apply X. }
    rewrite E, map_app in NB. apply ContractProofs.NoDup_app_inv in NB. apply NB.
  - apply IH; [intros c Hc; apply HB; right; exact Hc|exact SN'].
  - intros x X Y. apply in_map_iff in X. destruct X as (r & <- & X). apply in_map_iff in Y. destruct Y as (m & E & Y). apply in_flat_map in Y. destruct Y as (c & Hc & Y).
    apply in_map_iff in Y. destruct Y as (r' & <- & Y). cbn [tol ln] in E.
    destruct (S b (HB b (or_introl eq_refl))) as [Pm _]. destruct (S c (HB c (or_intror Hc))) as [Pm' _].
    pose proof (Permutation_in r (Permutation_sym Pm) (rtake_incl _ _ _ _ _ X)) as A. pose proof (Permutation_in r' (Permutation_sym Pm') (rtake_incl _ _ _ _ _ Y)) as B.
    apply filter_In in A, B. destruct A as [A1 A2], B as [B1 B2]. apply Nat.eqb_eq in A2, B2. assert (r = r') by (apply INJ; auto). subst r'. apply Hn. congruence.
Qed.
Lemma rmoves_legal s hv srt : ready s -> rsorted (pws k s) hv (part s) srt -> legal H k (part s) (rmoves (pws k s) srt).
Proof.
  intros [ST K] S. pose proof ST as (WF & C & HC). constructor.
  - apply (rmoves_nodup _ hv (part s)); [apply (wf_nodes _ WF)|exact S].
  - intros m Hm. destruct (rmoves_in _ _ _ _ _ S Hm) as (r & u & -> & Hu & Hr & _). apply rcand_spec in Hr. destruct Hr as [E _]. cbn. rewrite E. exact Hu.
  - intros m Hm. destruct (rmoves_in _ _ _ _ _ S Hm) as (r & u & -> & Hu & Hr & _). apply rcand_spec in Hr. destruct Hr as (E & EP & _). cbn. rewrite E. exact EP.
  - intros m Hm. destruct (rmoves_in _ _ _ _ _ S Hm) as (r & u & -> & Hu & Hr & _). apply rcand_spec in Hr. cbn. tauto.
  - intros m Hm. destruct (rmoves_in _ _ _ _ _ S Hm) as (r & u & -> & Hu & Hr & _). apply rcand_spec in Hr. cbn. tauto.
Qed.
End DetReb.
