(** JetProps.v - the deterministic Jet refiner: properties C69 and C70. *)
From Coq Require Import FunctionalExtensionality.
From Verif Require Import Base Spec SpecLemmas PHG PHGProofs Conc ConcMore ConcRun Objective GainCache Metrics PropsA WfCheck DetLP DetLPApply DetLPThms DetLPTotal DetReb DetRebThms DetLPProps DetRebProps ParLoop Afterburner AfterburnerThms Afterburner2 AfterburnerProps Jet JetThms JetRun.

(** What the balance check means. *)
Definition acceptable (H : hypergraph) (k : nat) (L : nat -> Z) (large_k : bool) (removed : Z) (P : partition) : Prop :=
  (forall b, (b < k)%nat -> block_weight H P b <= L b) /\ (large_k = true \/ Z.of_nat (length (filter (fun b => block_weight H P b =? 0) (seq 0 k))) <= removed).
Lemma isbalP_spec H k L lk rm P : isbalP H k L lk rm P = true <-> acceptable H k L lk rm P.
Proof.
  unfold isbalP, Jet.isbal, isBalanced, acceptable. pose proof (isBalanced_loop_spec (state_of H k P) L (seq 0 k) 0) as B. destruct (isBalanced_loop (state_of H k P) L (seq 0 k) 0) as [e|].
  - destruct B as [A E]. rewrite Z.add_0_l in E. change (fun i => partWeight (state_of H k P) i =? 0) with (fun b => block_weight H P b =? 0) in E.
    rewrite orb_true_iff, Z.leb_le, E. split.
    + intros X. split; [|exact X]. intros b Hb. apply (A b). apply in_seq. lia.
    + intros [_ X]. exact X.
  - destruct B as (b & Hb & X). apply in_seq in Hb. split; [discriminate|]. intros [A _]. specialize (A b ltac:(lia)). cbn in X. lia.
Qed.
(** What the refiner is given besides the partition. *)
Record jet_input (H : hypergraph) (k : nat) (scores : partition -> nat -> list (nat * Z)) (iso : partition -> nat -> Z) (jbest : partition -> nat -> nat * Z) {D : Type} (dlt : D -> D -> bool) : Prop := {
  jt_reb : reb_input H k scores iso;
  jt_best : forall P v, (fst (jbest P v) < k)%nat;
  jt_trans : forall a b c, dlt a b = true -> dlt b c = true -> dlt a c = true;
  jt_irr : forall a, dlt a a = false
}.
Section Props.
Variables (H : hypergraph) (k : nat) (L dead : nat -> Z) (fixed : nat -> bool).
Variables (may : (nat -> Z) -> nat -> Z -> bool) (prio : Z -> Z -> Z).
Variables (scores : partition -> nat -> list (nat * Z)) (iso : partition -> nat -> Z).
Variable o : objective.
Variables (jbest : partition -> nat -> nat * Z) (neg : nat -> Z -> Z) (hdt : nat).
Variables (D : Type) (imb : list Z -> D) (dlt : D -> D -> bool) (big : Z -> Z -> bool).
Variables (large_k : bool) (removed : Z) (detmax : nat).
Hypothesis IN : jet_input H k scores iso jbest dlt.
Local Notation jround := (jround H k L dead fixed may prio scores iso o jbest neg hdt large_k removed detmax).
Local Notation jet := (jet H k L dead fixed may prio scores iso o jbest neg hdt D imb dlt big large_k removed detmax).
Local Notation ok := (acceptable H k L large_k removed).
Local Notation weights := (fun P => map (block_weight H P) (seq 0 k)).

Lemma start_inv s q i hv B0 : started H s -> pk s = k -> q = obj_spec o H (part s) -> i = imb (weights (part s)) ->
  JI H k L fixed o D imb dlt large_k removed (part s) (mkJ s (fun _ => false) hv) (mkB D q i B0 true (isbal k L large_k removed s)).
Proof.
  intros ST K Q I. pose proof (conj ST K : ready H k s) as RD. destruct (ready_complete H k s RD) as [C1 C2]. constructor; unfold bst; cbn [Jet.bq Jet.bi Jet.bp Jet.cur Jet.was js]; auto.
  - intros v _. reflexivity.
  - intros v _. reflexivity.
  - apply isbal_P. exact RD.
  - unfold improves. destruct (isbalP H k L large_k removed (part s)); [split; [reflexivity|lia]|auto].
Qed.
(** C69: whatever the schedule and the gains, the call returns a consistent state with exact metrics, does not move fixed vertices,
    and the partition is not worse: an acceptable partition stays acceptable and its objective does not grow; otherwise the new
    partition is acceptable, less imbalanced, or the old one. *)
Theorem C69_never_worse : forall M N q i hv B0 s s' q' i' ret, started H s -> pk s = k -> q = obj_spec o H (part s) -> i = imb (weights (part s)) ->
  jet M N q i hv B0 s s' q' i' ret ->
  started H s' /\ pk s' = k /\ q' = obj_spec o H (part s') /\ i' = imb (weights (part s')) /\ (forall v, fixed v = true -> part s' v = part s v) /\
  (ok (part s) -> ok (part s') /\ q' <= q) /\ (~ ok (part s) -> ok (part s') \/ dlt i' i = true \/ part s' = part s) /\ ret = (q' <? q).
Proof.
  intros M N q i hv B0 s s' q' i' ret ST K Q I (x & b & R & -> & -> & -> & ->). destruct IN as [RI JK DT DI].
  destruct (jdyn_ok H k L dead fixed may prio scores iso o jbest neg hdt D imb dlt big large_k removed detmax RI JK DT (part s) N _ _ _ _ _ _ R (start_inv s q i hv B0 ST K Q I) eq_refl) as [[[S' K'] SM BS BC BK BQ BI BW BM] C].
  unfold bst in *. rewrite C in *. split; [exact S'|]. split; [exact K'|]. split; [exact BQ|]. split; [exact BI|]. split; [intros v Hv; apply SM; left; exact Hv|].
  unfold improves in BM. split; [|split; [|reflexivity]].
  - intros X. apply isbalP_spec in X. rewrite X in BM. destruct BM as [B1 B2]. split; [apply isbalP_spec; exact B1|]. rewrite BQ, Q. exact B2.
  - intros X. destruct (isbalP H k L large_k removed (part s)) eqn:E; [exfalso; apply X; apply isbalP_spec; exact E|]. destruct BM as [B1|[B1|B1]]; [left; apply isbalP_spec; exact B1|right; left; rewrite BI, I; exact B1|right; right; exact B1].
Qed.
(** The old content of _best_partition is irrelevant. *)
Local Notation jrounds := (jrounds H k L dead fixed may prio scores iso o jbest neg hdt D imb dlt big large_k removed detmax).
Local Notation jdyn := (jdyn H k L dead fixed may prio scores iso o jbest neg hdt D imb dlt big large_k removed detmax).
Lemma jrounds_bp dr N n q x q0 i0 B w x' b' : jrounds dr N n q x (mkB D q0 i0 B true w) x' b' ->
  (x' = x /\ b' = mkB D q0 i0 B true w /\ (N <= n)%nat) \/ forall B', jrounds dr N n q x (mkB D q0 i0 B' true w) x' b'.
Proof.
  intros R. inversion R as [? ? ? ? E2|? ? ? ? y1 h n1 ? ? E2 R2 cb cq ci C2 En2 X2|? ? ? ? y1 h ? ? E2 R2 cb cq ci C2 X2]; subst; [left; auto| |]; right; intros B'.
  - eapply jr_better; [exact E2|exact R2|exact C2|reflexivity|exact X2].
  - eapply jr_worse; [exact E2|exact R2|exact C2|exact X2].
Qed.
Lemma jdyn_bp N B' : forall m dr x q0 i0 B w x' b', jdyn N dr m x (mkB D q0 i0 B true w) x' b' ->
  exists b'', jdyn N dr m x (mkB D q0 i0 B' true w) x' b'' /\ bq D b'' = bq D b' /\ bi D b'' = bi D b'.
Proof.
  induction m as [|m IH]; intros dr x q0 i0 B w x' b' X; inversion X as [|? ? ? ? x1 b1 ? ? R C Y|? ? ? ? x1 b1 s2 g ? ? R C AP Y]; subst; [eexists; split; [apply jd_end|auto]| |]; cbn [Jet.bq] in R.
  - destruct (jrounds_bp _ _ _ _ _ _ _ _ _ _ _ R) as [(E1 & E2 & LE)|R'].
    + subst x1 b1. destruct (IH _ _ _ _ _ _ _ _ Y) as (b'' & Z1 & Z2 & Z3). exists b''. split; [|auto]. eapply jd_keep; [cbn [Jet.bq]; apply jr_stop; exact LE|reflexivity|exact Z1].
    + exists b'. split; [|auto]. eapply jd_keep; [cbn [Jet.bq]; apply R'|exact C|exact Y].
  - destruct (jrounds_bp _ _ _ _ _ _ _ _ _ _ _ R) as [(E1 & E2 & LE)|R'].
    + subst b1. discriminate C.
    + exists b'. split; [|auto]. eapply jd_roll; [cbn [Jet.bq]; apply R'|exact C|exact AP|exact Y].
Qed.
(** C70: the result is a function of the input partition, and the call ends. *)
Theorem C70_deterministic : forall M N q i hv B1 B2 s1 s2 s1' s2' q1 q2 i1 i2 r1 r2, started H s1 -> started H s2 -> pk s1 = k -> pk s2 = k -> part s1 = part s2 ->
  q = obj_spec o H (part s1) -> i = imb (weights (part s1)) ->
  jet M N q i hv B1 s1 s1' q1 i1 r1 -> jet M N q i hv B2 s2 s2' q2 i2 r2 -> part s1' = part s2' /\ q1 = q2 /\ i1 = i2 /\ r1 = r2.
Proof.
  intros M N q i hv B1 B2 s1 s2 s1' s2' q1 q2 i1 i2 r1 r2 S1 S2 K1 K2 EP Q I (x & b & R & -> & -> & -> & ->) (y & c & R2 & -> & -> & -> & ->). destruct IN as [RI JK DT DI].
  destruct (jdyn_bp N B1 _ _ _ _ _ _ _ _ _ R2) as (c' & R2' & Ec & Ei). clear R2.
  assert (Q2 : q = obj_spec o H (part s2)) by (rewrite <- EP; exact Q). assert (I2 : i = imb (weights (part s2))) by (rewrite <- EP; exact I).
  pose proof (start_inv s1 q i hv B1 S1 K1 Q I) as J1. pose proof (start_inv s2 q i hv B1 S2 K2 Q2 I2) as J2.
  assert (EB : isbal k L large_k removed s1 = isbal k L large_k removed s2) by (rewrite (isbal_P H k L large_k removed s1 (conj S1 K1)), (isbal_P H k L large_k removed s2 (conj S2 K2)), EP; reflexivity).
  rewrite <- EB in R2', J2.
  destruct (jdyn_det H k L dead fixed may prio scores iso o jbest neg hdt D imb dlt big large_k removed detmax RI JK DT (part s1) (part s2) N _ _ _ _ _ _ R _ _ _ J1 J2 eq_refl (conj EP (conj eq_refl eq_refl)) R2') as [(E1 & _) E2].
  subst c'. rewrite <- Ec, <- Ei. auto.
Qed.
Theorem C70_completes : forall M N q i hv B0 s, (forall e, 0 <= ew H e) -> started H s -> pk s = k -> q = obj_spec o H (part s) -> i = imb (weights (part s)) ->
  exists s' q' i' ret, jet M N q i hv B0 s s' q' i' ret.
Proof.
  intros M N q i hv B0 s EW ST K Q I. destruct IN as [RI JK DT DI].
  destruct (jdyn_total H k L dead fixed may prio scores iso o jbest neg hdt D imb dlt big large_k removed detmax RI JK DT DI EW (part s) N M 0%nat _ _ (start_inv s q i hv B0 ST K Q I) eq_refl) as (x & b & R).
  exists (js x), (bq D b), (bi D b), (bq D b <? q), x, b. auto.
Qed.
(** The moves of a round: exactly the active nodes whose move does not make the objective worse if all active nodes before them (in the
    order of their gains, then their ids) have moved; then the rebalancer is called if the partition is not acceptable. *)
Theorem C69_round : forall dr x x' g, o <> Osoed \/ (forall e, In e (edges H) -> length (pins H e) <> 2%nat) -> started H (js x) -> pk (js x) = k -> jround dr x x' g ->
  let P := part (js x) in let gt := jgt H fixed iso jbest neg hdt dr (jlk x) P in
  let B v := Pbef (js x) gt v in
  let P1 : partition := fun v => if mem v (nodes H) && jactive H fixed iso jbest neg hdt dr (jlk x) P v && (obj_spec o H (move (B v) v (tg gt v)) - obj_spec o H (B v) <=? 0) then Some (tg gt v) else P v in
  (ok P1 -> part (js x') = P1) /\
  (~ ok P1 -> part (js x') = reb_fun H k L dead fixed may prio scores iso (max_rounds detmax) (jhv x) P1) /\
  (forall v, In v (nodes H) -> (jlk x' v = true <-> P1 v <> P v)).
Proof.
  intros dr x x' g OB ST K R P gt B P1. destruct IN as [RI JK DT DI]. pose proof RI as [Wn Wt SK SI]. pose proof (conj ST K : ready H k (js x)) as RD.
  destruct R as [A a s1 g1 s2 g2 hv2 P' gt' PM AB AP RB]. subst P' gt'. fold P in PM, AB, AP. fold gt in AB, AP. cbn [js jlk].
  pose proof (jmoves_legal H k fixed iso jbest neg hdt JK dr (jlk x) (js x) A (fun v => ag a v <=? 0) RD PM) as LG. fold P in LG. fold gt in LG.
  destruct (apply_ok H k o (fun v _ => Wn v) Wt _ _ _ _ ST K LG AP) as (ST1 & K1 & E1 & _). fold P in E1.
  assert (AI : forall v, In v A <-> In v (nodes H) /\ jactive H fixed iso jbest neg hdt dr (jlk x) P v = true).
  { intros v. rewrite <- filter_In. split; apply Permutation_in; [symmetry|]; exact PM. }
  assert (II : ab_input H o (js x) gt A).
  { pose proof ST as (WF & _ & HC). constructor; [exact ST| | | | |exact OB].
    - intros v Hv. rewrite K. apply (tg_range H k fixed iso jbest neg hdt JK dr (jlk x) (js x) v RD Hv).
    - apply (Permutation_NoDup PM), NoDup_filter, (wf_nodes _ WF).
    - intros v Hv. apply (AI v). exact Hv.
    - intros v Hv NA. destruct (jactive H fixed iso jbest neg hdt dr (jlk x) P v) eqn:E; [exfalso; apply NA, AI; auto|]. unfold gt. rewrite (inactive_spec H fixed iso jbest neg hdt dr (jlk x) P v E).
      destruct (HC v Hv) as (b & X & _). fold P in X |- *. rewrite (own_spec _ _ _ X). exact X. }
  assert (MV : forall v, mem v (filter (fun v => ag a v <=? 0) A) = mem v (nodes H) && jactive H fixed iso jbest neg hdt dr (jlk x) P v && (obj_spec o H (move (B v) v (tg gt v)) - obj_spec o H (B v) <=? 0)).
  { intros v. apply eq_true_iff_eq. rewrite mem_In, filter_In, AI, !andb_true_iff, mem_In. split.
    - intros [[X1 X2] X3]. rewrite (C68_afterburner_exact H o (js x) gt A II a v AB) in X3 by (apply AI; auto). auto.
    - intros [[X1 X2] X3]. rewrite (C68_afterburner_exact H o (js x) gt A II a v AB) by (apply AI; auto). auto. }
  assert (EP : part s1 = P1).
  { rewrite E1. apply functional_extensionality. intros v. unfold P1. rewrite <- MV. destruct (mem_spec v (filter (fun v => ag a v <=? 0) A)) as [I|I].
    - apply (after_in P (map (tomove P gt) (filter (fun v => ag a v <=? 0) A)) (tomove P gt v)); [apply (lg_nodup _ _ _ _ LG)|]. apply in_map. exact I.
    - apply after_out. rewrite map_map. cbn [tomove ln]. rewrite map_id. exact I. }
  split; [|split].
  - intros O. rewrite (isbal_P H k L large_k removed s1 (conj ST1 K1)), EP in RB. rewrite (proj2 (isbalP_spec H k L large_k removed P1) O) in RB. destruct RB as (-> & _). exact EP.
  - intros O. rewrite (isbal_P H k L large_k removed s1 (conj ST1 K1)), EP in RB. destruct (isbalP H k L large_k removed P1) eqn:E; [exfalso; apply O; apply isbalP_spec; exact E|]. destruct RB as (r & RB).
    rewrite (C67_sequential H k L dead fixed may prio scores iso o RI _ _ _ _ _ _ _ ST1 K1 RB), EP. reflexivity.
  - intros v Hv. rewrite MV. unfold P1. destruct (mem v (nodes H) && jactive H fixed iso jbest neg hdt dr (jlk x) P v && (obj_spec o H (move (B v) v (tg gt v)) - obj_spec o H (B v) <=? 0)) eqn:E.
    + split; [intros _|reflexivity]. rewrite !andb_true_iff in E. destruct E as [[_ E] _]. destruct (active_spec H k fixed iso jbest neg hdt JK dr (jlk x) P v E) as (_ & N & _). fold gt in N. congruence.
    + split; [discriminate|congruence].
Qed.
End Props.
