(** JetThms.v - the deterministic Jet refiner: rounds, invariant, termination. *)
From Coq Require Import FunctionalExtensionality.
From Verif Require Import Base Spec SpecLemmas PHG PHGProofs Conc ConcMore ConcRun Objective GainCache Metrics PropsA DetLP DetLPApply DetLPThms DetLPTotal DetReb DetRebThms DetLPProps DetRebProps ParLoop Afterburner AfterburnerThms Afterburner2 AfterburnerProps Jet.

Lemma isBalanced_loop_ext s t L bs : (forall b, In b bs -> partWeight s b = partWeight t b) -> forall e, isBalanced_loop s L bs e = isBalanced_loop t L bs e.
Proof. induction bs as [|i r IH]; intros E e; cbn [isBalanced_loop]; [reflexivity|]. rewrite (E i) by (left; reflexivity). destruct (L i <? partWeight t i); [reflexivity|]. apply IH. intros b Hb. apply E. right. exact Hb. Qed.
Lemma pw_ready H k s b : ready H k s -> (b < k)%nat -> partWeight s b = block_weight H (part s) b.
Proof. intros [(_ & C & _) K] Hb. unfold partWeight. rewrite (c_wt _ _ C) by lia. reflexivity. Qed.
(** The result of the loop depends only on the partition. *)
Lemma vsum_part H o s t gt A v : started H s -> started H t -> part s = part t -> pk s = pk t -> (forall u, In u (nodes H) -> (tg gt u < pk s)%nat) ->
  vsum H o s gt A v = vsum H o t gt A v.
Proof.
  intros S T EP EK TG. unfold vsum. apply sumZ_ext. intros e He. destruct (A e); [|reflexivity]. destruct (Nat.eq_dec (length (pins H e)) 2) as [L2|L2].
  - unfold contrib. rewrite L2. cbn [Nat.eqb]. unfold contrib2, mover. rewrite EP. reflexivity.
  - assert (TG2 : forall u, In u (nodes H) -> (tg gt u < pk t)%nat) by (rewrite <- EK; exact TG).
    rewrite (contrib_ok H o s gt S TG e He (or_intror L2) v), (contrib_ok H o t gt T TG2 e He (or_intror L2) v). unfold De, Pbef. rewrite EP. reflexivity.
Qed.

Section Bal.
Variables (H : hypergraph) (k : nat) (L : nat -> Z) (large_k : bool) (removed : Z).
Local Notation rd := (ready H k).
Local Notation isbal := (isbal k L large_k removed).
Local Notation wts := (wts k).
(** The balance check and the imbalance as functions of the partition. *)
Definition isbalP (P : partition) : bool := isbal (state_of H k P).
Definition wtsP (P : partition) : list Z := map (block_weight H P) (seq 0 k).
Lemma isbal_P s : rd s -> isbal s = isbalP (part s).
Proof.
  intros RD. unfold isbalP, Jet.isbal, isBalanced. rewrite (isBalanced_loop_ext s (state_of H k (part s)) L (seq 0 k)); [reflexivity|]. intros b Hb. apply in_seq in Hb. rewrite (pw_ready H k s b RD) by lia. reflexivity.
Qed.
Lemma wts_P s : rd s -> wts s = wtsP (part s).
Proof. intros RD. unfold Jet.wts, wtsP. apply map_ext_in. intros b Hb. apply in_seq in Hb. apply (pw_ready H k s b RD). lia. Qed.

End Bal.

Section Jet.
Variables (H : hypergraph) (k : nat) (L dead : nat -> Z) (fixed : nat -> bool).
Variables (may : (nat -> Z) -> nat -> Z -> bool) (prio : Z -> Z -> Z).
Variables (scores : partition -> nat -> list (nat * Z)) (iso : partition -> nat -> Z).
Variable o : objective.
Variables (jbest : partition -> nat -> nat * Z) (neg : nat -> Z -> Z) (hdt : nat).
Variables (large_k : bool) (removed : Z) (detmax : nat).
Hypothesis IN : reb_input H k scores iso.
Hypothesis JK : forall P v, (fst (jbest P v) < k)%nat.
Local Notation rd := (ready H k).
Local Notation jround := (jround H k L dead fixed may prio scores iso o jbest neg hdt large_k removed detmax).
Local Notation jactive := (jactive H fixed iso jbest neg hdt).
Local Notation jgt := (jgt H fixed iso jbest neg hdt).
Local Notation isbal := (isbal k L large_k removed).
Local Notation wts := (wts k).
Local Notation isbalP := (isbalP H k L large_k removed).
Local Notation isbal_P := (isbal_P H k L large_k removed).

(** *** One round *)
Lemma active_spec dr lk P v : jactive dr lk P v = true -> fixed v = false /\ P v <> Some (tg (jgt dr lk P) v) /\ (tg (jgt dr lk P) v < k)%nat.
Proof.
  intros A. unfold tg, Jet.jgt. rewrite A. cbn [snd]. unfold Jet.jactive in A. rewrite !andb_true_iff in A. destruct A as [[[_ _] F] AC]. apply negb_true_iff in F. split; [exact F|].
  unfold accept in AC. destruct (jbest P v) as [t g] eqn:E. apply andb_true_iff in AC. destruct AC as [_ AC]. apply negb_true_iff in AC. cbn [fst]. split; [intros X; apply oeq_spec in X; congruence|].
  pose proof (JK P v) as Y. rewrite E in Y. exact Y.
Qed.
Lemma inactive_spec dr lk P v : jactive dr lk P v = false -> tg (jgt dr lk P) v = own P v.
Proof. intros A. unfold tg, Jet.jgt. rewrite A. reflexivity. Qed.
Lemma own_spec P v b : P v = Some b -> own P v = b.
Proof. intros E. unfold own. rewrite E. reflexivity. Qed.
Lemma tg_range dr lk s v : rd s -> In v (nodes H) -> (tg (jgt dr lk (part s)) v < k)%nat.
Proof.
  intros [(_ & _ & HC) K] Hv. destruct (jactive dr lk (part s) v) eqn:A; [apply (active_spec _ _ _ _ A)|]. rewrite (inactive_spec _ _ _ _ A). destruct (HC v Hv) as (b & E & B). rewrite (own_spec _ _ _ E). rewrite <- K. exact B.
Qed.
Lemma jmoves_legal dr lk s A f : rd s -> Permutation (filter (jactive dr lk (part s)) (nodes H)) A ->
  legal H k (part s) (map (tomove (part s) (jgt dr lk (part s))) (filter f A)).
Proof.
  intros RD PM. pose proof RD as [(WF & _ & HC) K].
  assert (ND : NoDup (filter f A)) by (apply NoDup_filter, (Permutation_NoDup PM), NoDup_filter, (wf_nodes _ WF)).
  assert (IA : forall v, In v (filter f A) -> In v (nodes H) /\ jactive dr lk (part s) v = true).
  { intros v Hv. apply filter_In in Hv. destruct Hv as [Hv _]. apply (Permutation_in v (Permutation_sym PM)) in Hv. apply filter_In in Hv. exact Hv. }
  constructor.
  - rewrite map_map. cbn [tomove ln]. rewrite map_id. exact ND.
  - intros m Hm. apply in_map_iff in Hm. destruct Hm as (v & <- & Hv). apply (IA v Hv).
  - intros m Hm. apply in_map_iff in Hm. destruct Hm as (v & <- & Hv). cbn. destruct (HC v (proj1 (IA v Hv))) as (b & E & _). rewrite (own_spec _ _ _ E). exact E.
  - intros m Hm. apply in_map_iff in Hm. destruct Hm as (v & <- & Hv). cbn. destruct (HC v (proj1 (IA v Hv))) as (b & E & _). rewrite (own_spec _ _ _ E). destruct (active_spec _ _ _ _ (proj2 (IA v Hv))) as (_ & N & _). congruence.
  - intros m Hm. apply in_map_iff in Hm. destruct Hm as (v & <- & Hv). cbn. apply (active_spec _ _ _ _ (proj2 (IA v Hv))).
Qed.
(** Moves touch neither fixed vertices nor anything else that is not a node. *)
Definition same (P Q : partition) : Prop := forall v, fixed v = true \/ ~ In v (nodes H) -> P v = Q v.
Lemma reb_same : forall n hv s s' g hv' r, reb H k L dead fixed may prio scores iso o n hv s s' g hv' r -> rd s -> same (part s') (part s).
Proof.
  destruct IN as [Wn Wt SK SI]. induction 1 as [n hv s E|hv s|n hv s s1 g1 hv1 s2 g2 hv2 r E R X IH]; intros RD; [intros v _; reflexivity|intros v _; reflexivity|].
  destruct (round_ok H k L dead fixed may prio scores iso o Wn Wt SK hv s s1 g1 hv1 RD R) as (R1 & _ & M & _). intros v Hv. rewrite (IH R1 v Hv).
  assert (Dc : {part s1 v = part s v} + {part s1 v <> part s v}) by (decide equality; apply Nat.eq_dec). destruct Dc as [Y|Y]; [exact Y|]. destruct (M v Y) as (X1 & X2 & _). destruct Hv; [congruence|contradiction].
Qed.
Theorem jround_ok dr x x' g : rd (js x) -> jround dr x x' g -> rd (js x') /\ g = obj_spec o H (part (js x)) - obj_spec o H (part (js x')) /\ same (part (js x')) (part (js x)).
Proof.
  intros RD R. destruct R as [A a s1 g1 s2 g2 hv2 P gt PM AB AP RB]. subst P gt. cbn [js]. pose proof IN as [Wn Wt SK SI]. pose proof RD as [ST K].
  pose proof (jmoves_legal dr (jlk x) (js x) A (fun v => ag a v <=? 0) RD PM) as LG.
  destruct (apply_ok H k o (fun v _ => Wn v) Wt _ _ _ _ ST K LG AP) as (ST1 & K1 & P1 & G1). pose proof (conj ST1 K1 : rd s1) as R1.
  assert (SM : same (part s1) (part (js x))).
  { intros v Hv. rewrite P1. apply after_out. intros I. apply in_map_iff in I. destruct I as (m & <- & Hm). apply in_map_iff in Hm. destruct Hm as (v & <- & Hm). cbn in Hv. apply filter_In in Hm. destruct Hm as [Hm _]. apply (Permutation_in v (Permutation_sym PM)) in Hm. apply filter_In in Hm. destruct Hm as [Hn Ha].
    destruct (active_spec _ _ _ _ Ha) as (F & _). destruct Hv; [congruence|contradiction]. }
  destruct (isbal s1).
  - destruct RB as (-> & -> & _). split; [exact R1|]. split; [lia|exact SM].
  - destruct RB as (r & RB). destruct (reb_ok H k L dead fixed may prio scores iso o IN _ _ _ _ _ _ _ RB R1) as (R2 & G2 & _). split; [exact R2|]. split; [lia|].
    intros v Hv. rewrite (reb_same _ _ _ _ _ _ _ RB R1 v Hv). apply SM. exact Hv.
Qed.
Lemma jround_total dr x : rd (js x) -> exists x' g, jround dr x x' g.
Proof.
  intros RD. pose proof IN as [Wn Wt SK SI]. pose proof RD as [ST K].
  set (A := filter (jactive dr (jlk x) (part (js x))) (nodes H)).
  destruct (C68_completes H o (js x) (jgt dr (jlk x) (part (js x))) A) as [a AB].
  pose proof (jmoves_legal dr (jlk x) (js x) A (fun v => ag a v <=? 0) RD (Permutation_refl _)) as LG.
  destruct (apply_total H k o _ (js x) RD LG) as (s1 & g1 & AP).
  destruct (apply_ok H k o (fun v _ => Wn v) Wt _ _ _ _ ST K LG AP) as (ST1 & K1 & _).
  destruct (isbal s1) eqn:B.
  - eexists _, _. apply (jround_intro _ _ _ _ _ _ _ _ _ _ _ _ _ _ _ _ dr x A a s1 g1 s1 0 (jhv x)); [apply Permutation_refl|exact AB|exact AP|]. rewrite B. auto.
  - destruct (reb_total H k L dead fixed may prio scores iso o Wn Wt SK (max_rounds detmax) (jhv x) s1 (conj ST1 K1)) as (s2 & g2 & hv2 & r & RB).
    eexists _, _. apply (jround_intro _ _ _ _ _ _ _ _ _ _ _ _ _ _ _ _ dr x A a s1 g1 s2 g2 hv2); [apply Permutation_refl|exact AB|exact AP|]. rewrite B. exists r. exact RB.
Qed.
(** Two executions from the same partition. *)
Definition jeq (x y : jst) : Prop := part (js x) = part (js y) /\ jlk x = jlk y /\ jhv x = jhv y.
Theorem jround_det dr x y x' y' g h : rd (js x) -> rd (js y) -> jeq x y -> jround dr x x' g -> jround dr y y' h -> jeq x' y' /\ g = h.
Proof.
  intros RX RY (EP & EL & EH) R1 R2. destruct (jround_ok _ _ _ _ RX R1) as (_ & GX & _). destruct (jround_ok _ _ _ _ RY R2) as (_ & GY & _).
  enough (J : jeq x' y'). { split; [exact J|]. destruct J as [J _]. rewrite GX, GY, EP, J. reflexivity. }
  clear GX GY. destruct R1 as [A a s1 g1 s2 g2 hv2 P gt PM AB AP RB]. destruct R2 as [A' a' t1 h1 t2 h2 hw2 P' gt' PM' AB' AP' RB']. subst P gt P' gt'. unfold jeq. cbn [js jlk jhv].
  pose proof IN as [Wn Wt SK SI]. pose proof RX as [SX KX]. pose proof RY as [SY KY]. rewrite <- EL in *. rewrite <- EH in *.
  assert (PA : Permutation A A') by (rewrite <- PM, EP; exact PM'). set (lk := jlk x) in *. set (gt := jgt dr lk (part (js x))) in *.
  assert (EG : jgt dr lk (part (js y)) = gt) by (unfold gt; rewrite EP; reflexivity). rewrite EG in *.
  assert (HA : incl A (nodes H)). { intros v Hv. apply (Permutation_in v (Permutation_sym PM)) in Hv. apply filter_In in Hv. apply Hv. }
  assert (HA' : incl A' (nodes H)). { intros v Hv. apply HA, (Permutation_in v (Permutation_sym PA) Hv). }
  assert (TG : forall u, In u (nodes H) -> (tg gt u < pk (js x))%nat) by (intros u Hu; rewrite KX; apply (tg_range dr lk (js x) u RX Hu)).
  assert (EA : ag a = ag a').
  { apply functional_extensionality. intros v. pose proof SX as (WF & _). destruct (bend H o (js x) gt WF A a HA AB) as [E1 V1]. destruct (bend H o (js y) gt WF A' a' HA' AB') as [E2 V2]. rewrite E1, E2.
    rewrite <- (vsum_part H o (js x) (js y) gt (vis a') v SX SY EP ltac:(congruence) TG). unfold vsum. apply sumZ_ext. intros e _.
    assert (EV : vis a e = vis a' e). { apply eq_true_iff_eq. rewrite V1, V2. split; intros (u & Hu & He); exists u; (split; [|exact He]); [apply (Permutation_in u PA Hu)|apply (Permutation_in u (Permutation_sym PA) Hu)]. }
    rewrite EV. reflexivity. }
  rewrite <- EA in *. set (f := fun v => ag a v <=? 0) in *.
  assert (PF : Permutation (filter f A) (filter f A')) by (apply filter_perm; exact PA).
  assert (ELK : (fun v => mem v (filter f A)) = (fun v => mem v (filter f A'))).
  { apply functional_extensionality. intros v. apply eq_true_iff_eq. rewrite !mem_In. split; apply Permutation_in; [exact PF|symmetry; exact PF]. }
  pose proof (jmoves_legal dr lk (js x) A f RX PM) as LG. pose proof (jmoves_legal dr lk (js y) A' f RY PM') as LG'. rewrite EG in LG'. fold gt in LG.
  destruct (apply_ok H k o (fun v _ => Wn v) Wt _ _ _ _ SX KX LG AP) as (ST1 & K1 & P1 & _). destruct (apply_ok H k o (fun v _ => Wn v) Wt _ _ _ _ SY KY LG' AP') as (ST1' & K1' & P1' & _).
  assert (E1 : part s1 = part t1).
  { rewrite P1, P1', <- EP. apply after_perm; [apply (lg_nodup _ _ _ _ LG)|]. apply Permutation_map. exact PF. }
  pose proof (conj ST1 K1 : rd s1) as RS. pose proof (conj ST1' K1' : rd t1) as RT. rewrite (isbal_P s1 RS) in RB. rewrite (isbal_P t1 RT), <- E1 in RB'.
  destruct (isbalP (part s1)).
  - destruct RB as (-> & _ & ->), RB' as (-> & _ & ->). split; [exact E1|]. split; [exact ELK|reflexivity].
  - destruct RB as (r & RB), RB' as (r' & RB'). destruct (C67_deterministic H k L dead fixed may prio scores iso o IN _ _ _ _ _ _ _ _ _ _ _ _ ST1 ST1' K1 K1' E1 RB RB') as (E2 & _ & E3 & _). auto.
Qed.
End Jet.
