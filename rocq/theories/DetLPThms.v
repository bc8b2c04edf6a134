(** DetLPThms.v - deterministic label propagation never makes the objective worse, keeps balanced partitions balanced and gives the
    same result under every schedule. *)
From Coq Require Import FunctionalExtensionality.
From Verif Require RBCost.
From Verif Require Import Base Spec SpecLemmas PHG PHGProofs Fixed Conc ConcProofs Objective GainCache Metrics PropsA Scan Revert Construct ParLoop DetCoarseThms Prefixes DetLP DetLPApply DetLP1 DetLP2.

Lemma lbefore_asym a b : lbefore a b -> ~ lbefore b a.
Proof. unfold lbefore. lia. Qed.
Lemma sorted_of_unique l l' a b : Permutation l l' -> sorted_of l a -> sorted_of l' b -> a = b.
Proof.
  intros HP [A1 A2] [B1 B2]. apply (ssorted_unique lbefore lbefore_asym); [|exact A2|exact B2].
  rewrite <- A1, HP. exact B1.
Qed.
Lemma filter_perm {A} (f : A -> bool) l l' : Permutation l l' -> Permutation (filter f l) (filter f l').
Proof.
  induction 1; cbn; [constructor|destruct (f x); [constructor|]; assumption|destruct (f x), (f y); try reflexivity; constructor|etransitivity; eassumption].
Qed.
Lemma vdelta_all H sm b : vdelta H sm (fun _ => true) b = delta H sm b.
Proof.
  unfold vdelta, delta. apply RBCost.sumZ_seq_nth. intros i x E. unfold dc, mvi. rewrite (nth_error_nth sm i dm E). reflexivity.
Qed.

Section Keep.
Variables (H : hypergraph) (k : nat) (L : nat -> Z).
Hypothesis Wn : forall v, 0 <= nw H v.
Variables (sm : list lmv) (W0 : nat -> Z).
Hypothesis MK : forall m, In m sm -> (lfrom m < k)%nat /\ (lto m < k)%nat /\ lfrom m <> lto m.
Lemma start_tracked : tracked H k L sm W0 (fun b => W0 b + delta H sm b) (overl k L (fun b => W0 b + delta H sm b)) (fun _ => true).
Proof. split; [|reflexivity]. intros b. rewrite vdelta_all. reflexivity. Qed.
Lemma keep_lp1 pw1 nov1 val1 : lp1 H L sm (length sm) (fun b => W0 b + delta H sm b) (overl k L (fun b => W0 b + delta H sm b)) (fun _ => true) = (pw1, nov1, val1) ->
  tracked H k L sm W0 pw1 nov1 val1.
Proof.
  intros E. eapply (lp1_ok H k L Wn sm W0 MK) in E; [apply E|lia|apply start_tracked|reflexivity].
Qed.
Lemma J_start pw1 nov1 val1 : tracked H k L sm W0 pw1 nov1 val1 -> J H k L sm W0 (length sm) 0 pw1 nov1 val1.
Proof. intros T. constructor; [exact T|lia|lia|intros i Hi; lia|left; reflexivity]. Qed.
(** The search for the moves to revert always ends, and never leaves the vector of moves. *)
Theorem keep_total : exists fuel val, keep H k L fuel sm W0 = Some val.
Proof.
  unfold keep. destruct (lp1 _ _ _ _ _ _ _) as [[pw1 nov1] val1] eqn:E1. apply keep_lp1 in E1.
  destruct (negb (Nat.eqb nov1 0) && Nat.eqb (overl k L W0) 0) eqn:C; [|exists 0%nat, val1; reflexivity].
  apply andb_true_iff in C. destruct C as [_ C]. apply Nat.eqb_eq in C. rewrite overl0 in C.
  exists (S (mu L sm (length sm) pw1 val1)).
  destruct (lp2_ok H k L Wn sm W0 MK C (S (mu L sm (length sm) pw1 val1)) (length sm) 0 pw1 nov1 val1 (J_start _ _ _ E1) ltac:(lia)) as (pw' & val' & E & _).
  rewrite E. exists val'. reflexivity.
Qed.
Theorem keep_balanced fuel val : (forall b, (b < k)%nat -> W0 b <= L b) -> keep H k L fuel sm W0 = Some val ->
  forall b, (b < k)%nat -> W0 b + vdelta H sm val b <= L b.
Proof.
  intros B. unfold keep. destruct (lp1 _ _ _ _ _ _ _) as [[pw1 nov1] val1] eqn:E1. apply keep_lp1 in E1.
  rewrite (proj2 (overl0 k L W0) B), Nat.eqb_refl, andb_true_r. destruct (Nat.eqb_spec nov1 0) as [->|Nz]; cbn [negb].
  - intros X b Hb. inversion X; subst. destruct E1 as [T1 T2]. rewrite <- T1. apply (proj1 (overl0 k L pw1)); [symmetry; exact T2|exact Hb].
  - destruct (lp2 _ _ _ fuel _ _ _ _ _) as [[[pw2 nov2] val2]|] eqn:E2; [|discriminate]. intros X b Hb. inversion X; subst.
    destruct (lp2_ok H k L Wn sm W0 MK B (S (mu L sm (length sm) pw1 val1)) (length sm) 0 pw1 nov1 val1 (J_start _ _ _ E1) ltac:(lia)) as (pw' & val' & E & [T1 T2] & _).
    pose proof (lp2_unique _ _ _ _ _ _ _ _ _ _ _ _ E2 E) as U. inversion U; subst. rewrite <- T1. apply (proj1 (overl0 k L pw')); [symmetry; exact T2|exact Hb].
Qed.
End Keep.
Lemma keep_unique H k L sm W0 n n' v v' : keep H k L n sm W0 = Some v -> keep H k L n' sm W0 = Some v' -> v = v'.
Proof.
  unfold keep. destruct (lp1 _ _ _ _ _ _ _) as [[pw1 nov1] val1]. destruct (_ && _); [|congruence].
  destruct (lp2 _ _ _ n _ _ _ _ _) as [[[a b] c]|] eqn:E; [|discriminate]. destruct (lp2 _ _ _ n' _ _ _ _ _) as [[[a' b'] c']|] eqn:E'; [|discriminate].
  pose proof (lp2_unique _ _ _ _ _ _ _ _ _ _ _ _ E E'). congruence.
Qed.
(** Dependence of stage 1 on its inputs. *)
Lemma involvements_ext k d d' b : (b < k)%nat -> (forall p q, (p < k)%nat -> (q < k)%nat -> d p q = d' p q) -> involvements k d b = involvements k d' b.
Proof.
  intros Hb E. unfold involvements. f_equal. f_equal. apply filter_ext_in. intros q Hq. apply in_seq in Hq. rewrite E by lia. reflexivity.
Qed.
Lemma swap_prefix_ext H k L d d' pw p q : (p < k)%nat -> (q < k)%nat -> (forall p q, (p < k)%nat -> (q < k)%nat -> d p q = d' p q) -> swap_prefix H k L d pw p q = swap_prefix H k L d' pw p q.
Proof.
  intros Hp Hq E. unfold swap_prefix, best_prefix. rewrite (involvements_ext k d d' p), (involvements_ext k d d' q), (E p q), (E q p) by assumption. reflexivity.
Qed.
Lemma applied_ext H k L d d' pw : (forall p q, (p < k)%nat -> (q < k)%nat -> d p q = d' p q) -> applied H k L d pw = applied H k L d' pw /\ leftover H k L d pw = leftover H k L d' pw.
Proof.
  intros E. unfold applied, leftover. split.
  - rewrite !flat_map_concat_map. f_equal. apply map_ext_in. intros [p q] Hpq. apply in_prod_iff in Hpq. rewrite !in_seq in Hpq. cbn [fst snd].
    rewrite (swap_prefix_ext H k L d d' pw p q), (E p q) by (assumption || lia). reflexivity.
  - rewrite !flat_map_concat_map. f_equal. apply map_ext_in. intros [p q] Hpq. apply in_prod_iff in Hpq. rewrite !in_seq in Hpq. cbn [fst snd].
    rewrite (swap_prefix_ext H k L d d' pw p q), (E p q) by (assumption || lia). reflexivity.
Qed.

Section Sub.
Variables (H : hypergraph) (k : nat) (L : nat -> Z) (fixed : nat -> bool) (cand : partition -> nat -> option (nat * Z)) (o : objective).
Hypothesis Wn : forall v, 0 <= nw H v.
Hypothesis Wt : total_weight H <= MAXW.
Hypothesis LM : forall b, (b < k)%nat -> L b <= MAXW.
Hypothesis CK : forall P u to g, cand P u = Some (to, g) -> (to < k)%nat.
Definition within (P : partition) : Prop := forall b, (b < k)%nat -> block_weight H P b <= L b.
Definition range_ok (rng : list nat) : Prop := NoDup rng /\ incl rng (nodes H).
Definition ready (s : phg) : Prop := started H s /\ pk s = k.

Lemma propose_in P u m : In m (propose fixed cand P u) -> ln m = u /\ P u = Some (lfrom m) /\ (lto m < k)%nat /\ lfrom m <> lto m /\ fixed u = false.
Proof.
  unfold propose. destruct (P u) as [f|]; [|intros []]. destruct (cand P u) as [[t g]|] eqn:E; [|intros []].
  destruct (fixed u); cbn [negb andb]; [intros []|]. destruct (0 <? g); [|intros []]. destruct (Nat.eqb_spec t f); [intros []|]. intros [<-|[]]. cbn.
  pose proof (CK P u t g E). auto.
Qed.
Lemma cands_in P rng m : In m (cands fixed cand P rng) -> In (ln m) rng /\ P (ln m) = Some (lfrom m) /\ (lto m < k)%nat /\ lfrom m <> lto m /\ fixed (ln m) = false.
Proof. unfold cands. rewrite in_flat_map. intros (u & Hu & Hm). apply propose_in in Hm. destruct Hm as [<- Hm]. split; assumption. Qed.
Lemma cands_nodup P rng : NoDup rng -> NoDup (map ln (cands fixed cand P rng)).
Proof.
  intros N. unfold cands. rewrite flat_map_concat_map, concat_map, map_map, <- flat_map_concat_map. apply NoDup_flat_map_; [exact N| |].
  - intros u _. unfold propose. destruct (P u); [|constructor]. destruct (cand P u) as [[t g]|]; [|constructor]. destruct (_ && _); [|constructor].
    constructor; [intros []|constructor].
  - intros u v x _ _ Hu Hv. apply in_map_iff in Hu, Hv. destruct Hu as (m & <- & Hm), Hv as (m' & E & Hm'). apply propose_in in Hm, Hm'. destruct Hm as [<- _], Hm' as [<- _]. congruence.
Qed.
Lemma cands_legal s rng ms : ready s -> range_ok rng -> Permutation (cands fixed cand (part s) rng) ms ->
  legal H k (part s) ms /\ (forall m, In m ms -> (lfrom m < k)%nat /\ fixed (ln m) = false).
Proof.
  intros [ST Ek] [N I] PM. pose proof ST as (_ & C & _).
  assert (G : forall m, In m ms -> In (ln m) rng /\ part s (ln m) = Some (lfrom m) /\ (lto m < k)%nat /\ lfrom m <> lto m /\ fixed (ln m) = false).
  { intros m Hm. apply cands_in with (P := part s). apply (Permutation_in m (Permutation_sym PM) Hm). }
  split.
  - constructor.
    + apply (Permutation_NoDup (Permutation_map ln PM)). apply cands_nodup. exact N.
    + intros m Hm. apply I. apply (G m Hm).
    + intros m Hm. apply (G m Hm).
    + intros m Hm. apply (G m Hm).
    + intros m Hm. apply (G m Hm).
  - intros m Hm. split; [|apply (G m Hm)]. rewrite <- Ek. apply (c_part _ _ C (ln m)). apply (G m Hm).
Qed.
Lemma pws_eq s b : ready s -> (b < k)%nat -> pws k s b = block_weight H (part s) b.
Proof.
  intros [(_ & C & _) Ek] Hb. unfold pws. destruct (Nat.ltb_spec b k); [|lia]. unfold partWeight. apply (c_wt _ _ C). lia.
Qed.
Lemma pws_part s s' : ready s -> ready s' -> part s = part s' -> pws k s = pws k s'.
Proof.
  intros R R' E. apply functional_extensionality. intros b. destruct (Nat.ltb_spec b k) as [Hb|Hb].
  - rewrite !pws_eq by assumption. rewrite E. reflexivity.
  - unfold pws. destruct (Nat.ltb_spec b k); [lia|reflexivity].
Qed.
Lemma budget s b : ready s -> within (part s) -> (b < k)%nat -> 0 <= L b - pws k s b < 2^31.
Proof.
  intros R B Hb. rewrite pws_eq by assumption. specialize (B b Hb). pose proof (LM b Hb).
  pose proof (block_weight_nonneg H (part s) b ltac:(intros; apply Wn)). unfold MAXW in *. lia.
Qed.
Lemma aor_ok ms s s' g rev : ready s -> legal H k (part s) ms -> apply_or_revert H o ms s s' g rev ->
  ready s' /\ 0 <= g /\ g = obj_spec o H (part s) - obj_spec o H (part s') /\
  rev = (obj_spec o H (part s) <? obj_spec o H (after (part s) ms)) /\ part s' = (if rev then part s else after (part s) ms).
Proof.
  intros [ST Ek] LG A. destruct (apply_or_revert_ok H k o (fun v _ => Wn v) Wt ms s s' g rev ST Ek LG A) as (S' & K' & X). split; [split; assumption|exact X].
Qed.
Definition only (ms : list lmv) (P P' : partition) : Prop := forall v, ~ In v (map ln ms) -> P' v = P v.
Lemma stage1_ok ms s s' g rev A R : ready s -> legal H k (part s) ms -> (forall m, In m ms -> (lfrom m < k)%nat) -> stage1 H k L o ms s s' g rev A R ->
  ready s' /\ 0 <= g /\ g = obj_spec o H (part s) - obj_spec o H (part s') /\ (within (part s) -> within (part s')) /\ only ms (part s) (part s') /\
  legal H k (part s') R /\ (forall m, In m A \/ In m R -> In m ms).
Proof.
  intros RD LG FR (dirs & DK & -> & -> & AR).
  pose proof (applied_legal H k L Wn ms dirs (pws k s) (part s) LG FR DK) as LA.
  destruct (leftover_legal H k L Wn ms dirs (pws k s) (part s) LG FR DK) as [LR1 LR2].
  pose proof (all_perm H k L Wn ms dirs (pws k s) (part s) LG FR DK) as AP.
  destruct (aor_ok _ s s' g rev RD LA AR) as (R' & G0 & G1 & _ & EP).
  split; [exact R'|]. split; [exact G0|]. split; [exact G1|]. split; [|split; [|split]].
  - intros B. rewrite EP. destruct rev; [exact B|]. intros b Hb. pose proof RD as [ST _]. pose proof ST as (WF & _).
    rewrite (weight_after H k b (wf_nodes H WF) _ (part s) LA). rewrite <- (pws_eq s b RD Hb).
    pose proof (stage1_budget H k L Wn ms dirs (pws k s) (part s) LG FR DK (fun b Hb => budget s b RD B Hb) b Hb). lia.
  - intros v Hv. rewrite EP. destruct rev; [reflexivity|]. apply after_out. intros X. apply Hv. apply in_map_iff in X. destruct X as (m & <- & Hm).
    apply in_map. apply (Permutation_in m AP). apply in_app_iff. left. exact Hm.
  - rewrite EP. destruct rev; assumption.
  - intros m Hm. apply (Permutation_in m AP). apply in_app_iff. exact Hm.
Qed.
Lemma stage2_ok ms s s' g rev V : ready s -> legal H k (part s) ms -> (forall m, In m ms -> (lfrom m < k)%nat) -> stage2 H k L o ms s s' g rev V ->
  ready s' /\ 0 <= g /\ g = obj_spec o H (part s) - obj_spec o H (part s') /\ (within (part s) -> within (part s')) /\ only ms (part s) (part s') /\ (forall m, In m V -> In m ms).
Proof.
  intros RD LG FR (sm & fuel & val & [PM SS] & KP & -> & AR).
  pose proof (legal_perm H k (part s) ms sm PM LG) as LS. pose proof (valid_legal H k (part s) sm val LS) as LV.
  assert (I : forall m, In m sm -> In m ms) by (intros m Hm; apply (Permutation_in m (Permutation_sym PM) Hm)).
  assert (MK : forall m, In m sm -> (lfrom m < k)%nat /\ (lto m < k)%nat /\ lfrom m <> lto m).
  { intros m Hm. split; [apply FR, I, Hm|]. split; [apply (lg_to _ _ _ _ LS m Hm)|apply (lg_ne _ _ _ _ LS m Hm)]. }
  destruct (aor_ok _ s s' g rev RD LV AR) as (R' & G0 & G1 & _ & EP).
  split; [exact R'|]. split; [exact G0|]. split; [exact G1|]. split; [|split].
  - intros B. rewrite EP. destruct rev; [exact B|]. intros b Hb. pose proof RD as [ST _]. pose proof ST as (WF & _).
    rewrite (weight_after H k b (wf_nodes H WF) _ (part s) LV), delta_valid. rewrite <- (pws_eq s b RD Hb).
    apply (keep_balanced H k L Wn sm (pws k s) MK fuel val); [|exact KP|exact Hb]. intros c Hc. rewrite pws_eq by assumption. apply B. exact Hc.
  - intros v Hv. rewrite EP. destruct rev; [reflexivity|]. apply after_out. intros X. apply Hv. apply in_map_iff in X. destruct X as (m & <- & Hm).
    apply in_map. apply I. apply (valid_in sm val m Hm).
  - intros m Hm. apply I. apply (valid_in sm val m Hm).
Qed.
(** One sub-round. *)
Theorem sub_ok rng s s' g rev nm moved : ready s -> range_ok rng -> lp_sub H k L fixed cand o rng s s' g rev nm moved ->
  ready s' /\ 0 <= g /\ g = obj_spec o H (part s) - obj_spec o H (part s') /\ (within (part s) -> within (part s')) /\
  (forall v, fixed v = true -> part s' v = part s v) /\ (forall b m, In b moved -> In m b -> In (ln m) (nodes H)).
Proof.
  intros RD RG (ms & PM & -> & X). destruct (cands_legal s rng ms RD RG PM) as [LG FX].
  assert (FR : forall m, In m ms -> (lfrom m < k)%nat) by (intros m Hm; apply (FX m Hm)).
  assert (FN : forall v, fixed v = true -> ~ In v (map ln ms)).
  { intros v Hv Y. apply in_map_iff in Y. destruct Y as (m & <- & Hm). destruct (FX m Hm). congruence. }
  assert (BN : forall A rev b m, (forall m, In m A -> In m ms) -> In b (batches A rev) -> In m b -> In (ln m) (nodes H)).
  { intros A rv b m HA Hb Hm. unfold batches in Hb. destruct Hb as [<-|Hb]; [apply (lg_node _ _ _ _ LG), HA, Hm|]. destruct rv; [|destruct Hb]. destruct Hb as [<-|[]].
    apply in_map_iff in Hm. destruct Hm as (y & <- & Hy). apply (lg_node _ _ _ _ LG y), HA, Hy. }
  destruct (isnil ms).
  - destruct X as (-> & -> & -> & ->). split; [exact RD|]. split; [lia|]. split; [lia|]. split; [auto|]. split; [auto|]. intros b m [].
  - destruct X as (s1 & g1 & A & R & S1 & X). destruct (stage1_ok ms s s1 g1 rev A R RD LG FR S1) as (R1 & P1 & E1 & B1 & O1 & L1 & I1).
    destruct (_ && _).
    + destruct X as (R2 & g2 & rev2 & V & PR & S2 & -> & ->).
      assert (IR : forall m, In m R2 -> In m ms) by (intros m Hm; apply I1; right; apply (Permutation_in m (Permutation_sym PR) Hm)).
      destruct (stage2_ok R2 s1 s' g2 rev2 V R1 (legal_perm _ _ _ _ _ PR L1) (fun m Hm => FR m (IR m Hm)) S2) as (R3 & P3 & E3 & B3 & O3 & I3).
      split; [exact R3|]. split; [lia|]. split; [lia|]. split; [auto|]. split.
      * intros v Hv. rewrite O3, O1; [reflexivity|apply FN; exact Hv|]. intros Y. apply (FN v Hv). apply in_map_iff in Y. destruct Y as (m & <- & Hm). apply in_map. apply IR, Hm.
      * intros b m Hb Hm. apply in_app_iff in Hb. destruct Hb as [Hb|Hb]; (eapply BN; [|exact Hb|exact Hm]); auto.
    + destruct X as (-> & -> & ->). split; [exact R1|]. split; [exact P1|]. split; [exact E1|]. split; [exact B1|]. split.
      * intros v Hv. apply O1, FN, Hv.
      * intros b m Hb Hm. eapply BN; [|exact Hb|exact Hm]. auto.
Qed.
(** One sub-round does not depend on the schedule. *)
Lemma aor_det ms s s' g rev t t' h rvt : ready s -> ready t -> part s = part t -> legal H k (part s) ms ->
  apply_or_revert H o ms s s' g rev -> apply_or_revert H o ms t t' h rvt -> g = h /\ rev = rvt /\ part s' = part t'.
Proof.
  intros Rs Rt E LG A B. destruct (aor_ok ms s s' g rev Rs LG A) as (_ & _ & G1 & V1 & P1). rewrite E in LG. destruct (aor_ok ms t t' h rvt Rt LG B) as (_ & _ & G2 & V2 & P2).
  rewrite E in V1, P1, G1. assert (ER : rev = rvt) by (rewrite V1, V2; reflexivity). assert (EP : part s' = part t') by (rewrite P1, P2, ER; reflexivity).
  split; [rewrite G1, G2, EP; reflexivity|]. split; assumption.
Qed.
Lemma stage1_det ms ms' s s' g rev A R t t' h rvt A' R' : ready s -> ready t -> part s = part t -> legal H k (part s) ms -> (forall m, In m ms -> (lfrom m < k)%nat) -> Permutation ms ms' ->
  stage1 H k L o ms s s' g rev A R -> stage1 H k L o ms' t t' h rvt A' R' -> g = h /\ rev = rvt /\ part s' = part t' /\ A = A' /\ R = R'.
Proof.
  intros Rs Rt E LG FR PM (d & D1 & -> & -> & X) (d' & D2 & -> & -> & Y).
  assert (ED : forall p q, (p < k)%nat -> (q < k)%nat -> d p q = d' p q).
  { intros p q Hp Hq. apply (sorted_of_unique _ _ _ _ (filter_perm (fun m => Nat.eqb (lfrom m) p && Nat.eqb (lto m) q) ms ms' PM)); [apply D1|apply D2]; assumption. }
  destruct (applied_ext H k L d d' (pws k s) ED) as [EA ER]. rewrite (pws_part s t Rs Rt E) in *. rewrite <- EA in Y.
  pose proof (applied_legal H k L Wn ms d (pws k t) (part s) LG FR D1) as LA.
  destruct (aor_det _ s s' g rev t t' h rvt Rs Rt E LA X Y) as (E1 & E2 & E3). auto.
Qed.
Lemma stage2_det ms ms' s s' g rev V t t' h rvt V' : ready s -> ready t -> part s = part t -> legal H k (part s) ms -> Permutation ms ms' ->
  stage2 H k L o ms s s' g rev V -> stage2 H k L o ms' t t' h rvt V' -> g = h /\ rev = rvt /\ part s' = part t' /\ V = V'.
Proof.
  intros Rs Rt E LG PM (sm & f & v & S1 & K1 & -> & X) (sm' & f' & v' & S2 & K2 & -> & Y).
  pose proof (sorted_of_unique ms ms' sm sm' PM S1 S2) as ES. subst sm'. rewrite (pws_part s t Rs Rt E) in K1. pose proof (keep_unique _ _ _ _ _ _ _ _ _ K1 K2) as EV. subst v'.
  destruct (aor_det _ s s' g rev t t' h rvt Rs Rt E (valid_legal H k (part s) sm v (legal_perm H k _ _ _ (proj1 S1) LG)) X Y) as (E1 & E2 & E3). auto.
Qed.
Theorem sub_det rng s s' g rev nm mv t t' h rvt nm' mv' : ready s -> ready t -> part s = part t -> range_ok rng ->
  lp_sub H k L fixed cand o rng s s' g rev nm mv -> lp_sub H k L fixed cand o rng t t' h rvt nm' mv' ->
  part s' = part t' /\ g = h /\ rev = rvt /\ nm = nm' /\ mv = mv'.
Proof.
  intros Rs Rt E RG (ms & PM & -> & X) (ms' & PM' & -> & Y). rewrite <- E in PM'.
  assert (PP : Permutation ms ms') by (rewrite <- PM; exact PM').
  destruct (cands_legal s rng ms Rs RG PM) as [LG FX]. assert (FR : forall m, In m ms -> (lfrom m < k)%nat) by (intros m Hm; apply (FX m Hm)).
  pose proof (Permutation_length PP) as EL.
  assert (EN : isnil ms = isnil ms') by (destruct ms, ms'; cbn in *; congruence). rewrite <- EN in Y.
  destruct (isnil ms).
  - destruct X as (-> & -> & -> & ->), Y as (-> & -> & -> & ->). auto.
  - destruct X as (s1 & g1 & A & R & S1 & X), Y as (t1 & h1 & A' & R' & T1 & Y).
    destruct (stage1_det ms ms' s s1 g1 rev A R t t1 h1 rvt A' R' Rs Rt E LG FR PP S1 T1) as (-> & -> & E1 & <- & <-).
    destruct (stage1_ok ms s s1 h1 rvt A R Rs LG FR S1) as (R1 & _ & _ & _ & _ & L1 & _).
    assert (LG' : legal H k (part t) ms') by (rewrite <- E; apply (legal_perm _ _ _ _ _ PP LG)).
    assert (FR' : forall m, In m ms' -> (lfrom m < k)%nat) by (intros m Hm; apply FR, (Permutation_in m (Permutation_sym PP) Hm)).
    destruct (stage1_ok ms' t t1 h1 rvt A R Rt LG' FR' T1) as (R2 & _).
    destruct (_ && _).
    + destruct X as (Q & g2 & rev2 & V & PR & S2 & -> & ->), Y as (Q' & h2 & rvt2 & V' & PR' & T2 & -> & ->).
      destruct (stage2_det Q Q' s1 s' g2 rev2 V t1 t' h2 rvt2 V' R1 R2 E1 (legal_perm _ _ _ _ _ PR L1) (Permutation_trans (Permutation_sym PR) PR') S2 T2) as (-> & -> & E3 & ->). auto.
    + destruct X as (-> & -> & ->), Y as (-> & -> & ->). auto.
Qed.
End Sub.
