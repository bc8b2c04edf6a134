(** JetRun.v - the rounds of the deterministic Jet refiner: invariant, determinism, termination. *)
From Coq Require Import FunctionalExtensionality.
From Verif Require Import Base Spec SpecLemmas PHG PHGProofs Conc ConcMore ConcRun Objective GainCache Metrics PropsA DetLP DetLPApply DetLPThms DetLPTotal DetReb DetRebThms DetLPProps DetRebProps ParLoop Afterburner AfterburnerThms Afterburner2 AfterburnerProps Jet JetThms.

(** All vectors of block weights. *)
Fixpoint vecs (k M : nat) : list (list Z) :=
  match k with O => [[]] | S k => flat_map (fun z => map (cons (Z.of_nat z)) (vecs k M)) (seq 0 (S M)) end.
Lemma vecs_in M : forall l, (forall z, In z l -> 0 <= z <= Z.of_nat M) -> In l (vecs (length l) M).
Proof.
  induction l as [|z l IH]; intros B; [left; reflexivity|]. cbn [length vecs]. apply in_flat_map. exists (Z.to_nat z). pose proof (B z (or_introl eq_refl)).
  split; [apply in_seq; lia|]. apply in_map_iff. exists l. split; [rewrite Z2Nat.id by lia; reflexivity|]. apply IH. intros y Hy. apply B. right. exact Hy.
Qed.
Lemma filter_strict {A} (p q : A -> bool) l x : (forall y, p y = true -> q y = true) -> In x l -> p x = false -> q x = true -> (length (filter p l) < length (filter q l))%nat.
Proof.
  intros PQ. assert (LE : forall l, (length (filter p l) <= length (filter q l))%nat). { induction l0 as [|y r IH]; cbn; [lia|]. destruct (p y) eqn:E; [rewrite (PQ y E); cbn; lia|]. destruct (q y); cbn; lia. }
  induction l as [|y r IH]; intros I Px Qx; [destruct I|]. cbn. destruct I as [->|I].
  - rewrite Px, Qx. cbn. pose proof (LE r). lia.
  - specialize (IH I Px Qx). destruct (p y) eqn:E; [rewrite (PQ y E); cbn; lia|]. destruct (q y); cbn; lia.
Qed.
Lemma obj_low o H P : (forall e, 0 <= ew H e) -> - sumZ (ew H) (edges H) <= obj_spec o H P.
Proof.
  intros W. rewrite obj_sum, <- sumZ_opp. apply sumZ_le. intros e _. pose proof (W e). assert (C : 0 <= connectivity H P e) by (unfold connectivity; lia).
  destruct o; cbn [obj_spec_edge]; unfold cut_edge, km1_edge, soed_edge; [destruct (1 <? _); lia|nia|destruct (Z.ltb_spec 1 (connectivity H P e)); nia].
Qed.
Lemma bw_range H P b : (forall v, 0 <= nw H v) -> 0 <= block_weight H P b <= total_weight H.
Proof.
  intros W. unfold block_weight, total_weight. rewrite sumZ_filter. split.
  - apply sumZ_nonneg. intros v _. destruct (in_block P b v); [apply W|lia].
  - apply sumZ_le. intros v _. destruct (in_block P b v); [lia|apply W].
Qed.

Section Run.
Variables (H : hypergraph) (k : nat) (L dead : nat -> Z) (fixed : nat -> bool).
Variables (may : (nat -> Z) -> nat -> Z -> bool) (prio : Z -> Z -> Z).
Variables (scores : partition -> nat -> list (nat * Z)) (iso : partition -> nat -> Z).
Variable o : objective.
Variables (jbest : partition -> nat -> nat * Z) (neg : nat -> Z -> Z) (hdt : nat).
Variables (D : Type) (imb : list Z -> D) (dlt : D -> D -> bool) (big : Z -> Z -> bool).
Variables (large_k : bool) (removed : Z) (detmax : nat).
Hypothesis IN : reb_input H k scores iso.
Hypothesis JK : forall P v, (fst (jbest P v) < k)%nat.
Local Notation rd := (ready H k).
Local Notation jround := (jround H k L dead fixed may prio scores iso o jbest neg hdt large_k removed detmax).
Local Notation jrounds := (jrounds H k L dead fixed may prio scores iso o jbest neg hdt D imb dlt big large_k removed detmax).
Local Notation jdyn := (jdyn H k L dead fixed may prio scores iso o jbest neg hdt D imb dlt big large_k removed detmax).
Local Notation isbal := (isbal k L large_k removed).
Local Notation isbalP := (isbalP H k L large_k removed).
Local Notation wts := (wts k).
Local Notation wtsP := (wtsP H k).
Local Notation jbs := (jbs D).
Local Notation bq := (bq D). Local Notation bi := (bi D). Local Notation bp := (bp D). Local Notation cur := (cur D). Local Notation was := (was D).
Local Notation mkB := (mkB D).
Local Notation same := (same H fixed).
Local Notation jround_ok := (jround_ok H k L dead fixed may prio scores iso o jbest neg hdt large_k removed detmax IN JK).
Local Notation jround_total := (jround_total H k L dead fixed may prio scores iso o jbest neg hdt large_k removed detmax IN JK).
Local Notation jround_det := (jround_det H k L dead fixed may prio scores iso o jbest neg hdt large_k removed detmax IN JK).

(** *** Invariant: the best partition and its metrics *)
Definition bst (x : jst) (b : jbs) : partition := if cur b then part (js x) else bp b.
(** Q is at least as good as P0 for the refiner. *)
Definition improves (P0 Q : partition) : Prop :=
  if isbalP P0 then isbalP Q = true /\ obj_spec o H Q <= obj_spec o H P0
  else isbalP Q = true \/ dlt (imb (wtsP Q)) (imb (wtsP P0)) = true \/ Q = P0.
Record JI (P0 : partition) (x : jst) (b : jbs) : Prop := {
  ji_rd : rd (js x);
  ji_same : same (part (js x)) P0;
  ji_bsame : same (bst x b) P0;
  ji_bc : complete H (bst x b) k;
  ji_bk : forall v c, bst x b v = Some c -> (c < k)%nat;
  ji_q : bq b = obj_spec o H (bst x b);
  ji_i : bi b = imb (wtsP (bst x b));
  ji_was : was b = isbalP (bst x b);
  ji_imp : improves P0 (bst x b)
}.
Hypothesis dlt_trans : forall a b c, dlt a b = true -> dlt b c = true -> dlt a c = true.
Lemma ready_complete s : rd s -> complete H (part s) k /\ forall v c, part s v = Some c -> (c < k)%nat.
Proof. intros [(_ & C & HC) K]. rewrite <- K. split; [exact HC|apply (c_part _ _ C)]. Qed.
Lemma step_inv P0 dr q x b x1 g c : JI P0 x b -> q = obj_spec o H (part (js x)) -> jround dr x x1 g ->
  c = ((q - g <? bq b) && was b && isbal (js x1) || negb (was b) && dlt (imb (wts (js x1))) (bi b)) ->
  q - g = obj_spec o H (part (js x1)) /\
  JI P0 x1 (if c then mkB (q - g) (imb (wts (js x1))) (bst x b) true (was b || isbal (js x1)) else mkB (bq b) (bi b) (bst x b) false (was b)).
Proof.
  intros [RD SM BS BC BK BQ BI BW BM] Q R EC. destruct (jround_ok _ _ _ _ RD R) as (R1 & G & S1). assert (Q1 : q - g = obj_spec o H (part (js x1))) by lia. split; [exact Q1|].
  assert (S1' : same (part (js x1)) P0) by (intros v Hv; rewrite (S1 v Hv); apply SM; exact Hv). rewrite (isbal_P H k L large_k removed _ R1), (wts_P H k L _ R1) in *. destruct (ready_complete _ R1) as [C1 K1].
  destruct c; constructor; unfold bst in *; cbn [JetThms.same Jet.bq Jet.bi Jet.bp Jet.cur Jet.was] in *; auto.
  - symmetry in EC. apply orb_true_iff in EC. destruct EC as [E|E]; rewrite !andb_true_iff in E.
    + destruct E as [[_ W] B]. rewrite W, B. reflexivity.
    + destruct E as [W _]. apply negb_true_iff in W. rewrite W. reflexivity.
  - symmetry in EC. unfold improves in *. apply orb_true_iff in EC. destruct EC as [E|E]; rewrite !andb_true_iff in E.
    + destruct E as [[E1 W] B]. apply Z.ltb_lt in E1. rewrite B. destruct (isbalP P0); [|left; reflexivity]. split; [reflexivity|]. rewrite <- Q1. destruct BM as [_ BM]. rewrite <- BQ in BM. lia.
    + destruct E as [W E]. apply negb_true_iff in W. rewrite BI in E. rewrite W in BW. destruct (isbalP P0) eqn:B0; [destruct BM; congruence|]. right. left.
      destruct BM as [BM|[BM|BM]]; [congruence|eapply dlt_trans; eassumption|rewrite <- BM; exact E].
Qed.
(** The bookkeeping of one round. *)
Definition upd_b (q : Z) (x x1 : jst) (b : jbs) (g : Z) : jbs :=
  if (q - g <? bq b) && was b && isbal (js x1) || negb (was b) && dlt (imb (wts (js x1))) (bi b)
  then mkB (q - g) (imb (wts (js x1))) (bst x b) true (was b || isbal (js x1)) else mkB (bq b) (bi b) (bst x b) false (was b).
Theorem jrounds_ok P0 dr N : forall n q x b x' b', jrounds dr N n q x b x' b' -> JI P0 x b -> q = obj_spec o H (part (js x)) -> JI P0 x' b'.
Proof.
  induction 1 as [n q x b E|n q x b x1 g n1 x2 b2 E R b1 q1 i1 C En X IH|n q x b x1 g x2 b2 E R b1 q1 i1 C X IH]; intros J Q; [exact J| |]; subst b1 q1 i1.
  - destruct (step_inv P0 dr q x b x1 g _ J Q R eq_refl) as [Q1 J1]. rewrite C in J1. apply IH; [exact J1|exact Q1].
  - destruct (step_inv P0 dr q x b x1 g _ J Q R eq_refl) as [Q1 J1]. rewrite C in J1. apply IH; [exact J1|exact Q1].
Qed.
(** *** Rollback *)
Lemma back_in P B m : In m (back_moves H P B) -> In (ln m) (nodes H) /\ P (ln m) <> B (ln m) /\ lfrom m = own P (ln m) /\ lto m = own B (ln m).
Proof.
  unfold back_moves. intros I. apply in_flat_map in I. destruct I as (v & Hv & I). destruct (oeq (P v) (B v)) eqn:E; [destruct I|]. destruct I as [<-|[]]. cbn. split; [exact Hv|]. split; [|auto]. intros X. apply oeq_spec in X. congruence.
Qed.
Lemma back_nodup P B : NoDup (nodes H) -> NoDup (map ln (back_moves H P B)).
Proof.
  unfold back_moves. generalize (nodes H). induction l as [|v l IH]; intros N; [constructor|]. inversion N as [|? ? Hn N']; subst. cbn [flat_map]. rewrite map_app. destruct (oeq (P v) (B v)); [apply IH; exact N'|]. cbn [map app]. constructor; [|apply IH; exact N'].
  intros I. apply in_map_iff in I. destruct I as (m & E & I). apply in_flat_map in I. destruct I as (u & Hu & I). destruct (oeq (P u) (B u)); [destruct I|]. destruct I as [<-|[]]. cbn in E. subst. contradiction.
Qed.
Lemma back_legal s B : rd s -> complete H B k -> legal H k (part s) (back_moves H (part s) B).
Proof.
  intros RD CB. pose proof RD as [(WF & _ & HC) K]. constructor.
  - apply back_nodup, (wf_nodes _ WF).
  - intros m Hm. apply (back_in _ _ _ Hm).
  - intros m Hm. destruct (back_in _ _ _ Hm) as (I & _ & E & _). destruct (HC _ I) as (c & X & _). rewrite E, (own_spec _ _ _ X). exact X.
  - intros m Hm. destruct (back_in _ _ _ Hm) as (I & N & E & F). destruct (HC _ I) as (c & X & _). destruct (CB _ I) as (d & Y & _). rewrite E, F, (own_spec _ _ _ X), (own_spec _ _ _ Y). congruence.
  - intros m Hm. destruct (back_in _ _ _ Hm) as (I & _ & _ & F). destruct (CB _ I) as (d & Y & B1). rewrite F, (own_spec _ _ _ Y). exact B1.
Qed.
Lemma back_after s B : rd s -> complete H B k -> (forall v, ~ In v (nodes H) -> part s v = B v) -> after (part s) (back_moves H (part s) B) = B.
Proof.
  intros RD CB OFF. apply functional_extensionality. intros v. pose proof (back_legal s B RD CB) as LG. destruct (in_dec Nat.eq_dec v (map ln (back_moves H (part s) B))) as [I|I].
  - apply in_map_iff in I. destruct I as (m & <- & I). rewrite (after_in _ _ _ (lg_nodup _ _ _ _ LG) I). destruct (back_in _ _ _ I) as (J & _ & _ & F). destruct (CB _ J) as (d & Y & _). rewrite F, (own_spec _ _ _ Y). congruence.
  - rewrite after_out by exact I. destruct (in_dec Nat.eq_dec v (nodes H)) as [J|J]; [|apply OFF; exact J]. destruct (oeq (part s v) (B v)) eqn:E; [apply oeq_spec; exact E|]. exfalso. apply I. apply in_map_iff.
    exists (mkL v (own (part s) v) (own B v) 0). split; [reflexivity|]. unfold back_moves. apply in_flat_map. exists v. split; [exact J|]. rewrite E. left. reflexivity.
Qed.
Lemma roll_ok P0 x b s2 g : JI P0 x b -> cur b = false -> apply_all H o (back_moves H (part (js x)) (bp b)) (js x) s2 g ->
  part s2 = bp b /\ forall lk hv, JI P0 (mkJ s2 lk hv) (mkB (bq b) (bi b) (bp b) true (was b)).
Proof.
  intros [RD SM BS BC BK BQ BI BW BM] C AP. unfold bst in *. rewrite C in *. pose proof IN as [Wn Wt SK SI]. pose proof RD as [ST K].
  destruct (apply_ok H k o (fun v _ => Wn v) Wt _ _ _ _ ST K (back_legal _ _ RD BC) AP) as (ST2 & K2 & P2 & _).
  assert (E : part s2 = bp b) by (rewrite P2; apply back_after; [exact RD|exact BC|intros v Hv; rewrite (SM v), (BS v); auto]).
  split; [exact E|]. intros lk hv. constructor; unfold bst; cbn [Jet.bq Jet.bi Jet.bp Jet.cur Jet.was js]; rewrite ?E; auto. split; assumption.
Qed.
Theorem jdyn_ok P0 N : forall dr m x b x' b', jdyn N dr m x b x' b' -> JI P0 x b -> cur b = true -> JI P0 x' b' /\ cur b' = true.
Proof.
  assert (RS : forall x b, JI P0 x b -> cur b = true -> JI P0 (mkJ (js x) (fun _ => false) (jhv x)) b /\ bq b = obj_spec o H (part (js x))).
  { intros x b [RD SM BS BC BK BQ BI BW BM] C. split; [constructor; unfold bst in *; cbn [js]; auto|]. rewrite BQ. unfold bst. rewrite C. reflexivity. }
  induction 1 as [dr x b|dr m x b x1 b1 x2 b2 R C X IH|dr m x b x1 b1 s2 g x2 b2 R C AP X IH]; intros J CB; [auto| |]; destruct (RS x b J CB) as [J0 Q0]; pose proof (jrounds_ok P0 _ _ _ _ _ _ _ _ R J0 Q0) as J1.
  - apply IH; assumption.
  - destruct (roll_ok P0 x1 b1 s2 g J1 C AP) as [_ J2]. apply IH; [apply J2|reflexivity].
Qed.
(** *** Determinism *)
Lemma jrounds_det P0 P1 dr N : forall n q x b x' b', jrounds dr N n q x b x' b' -> forall y y' c', JI P0 x b -> JI P1 y b -> q - obj_spec o H (part (js x)) = 0 -> jeq x y ->
  jrounds dr N n q y b y' c' -> jeq x' y' /\ b' = c'.
Proof.
  induction 1 as [n q x b E|n q x b x1 g n1 x2 b2 E R b1 q1 i1 C En X IH|n q x b x1 g x2 b2 E R b1 q1 i1 C X IH]; intros y y' c' J J' Qd EQ Y.
  - inversion Y; subst; [auto|lia|lia].
  - subst b1 q1 i1.
    assert (BE : (if cur b then part (js x) else bp b) = (if cur b then part (js y) else bp b)) by (destruct EQ as [EP _]; rewrite EP; reflexivity).
    inversion Y as [? ? ? ? E2|? ? ? ? y1 h ? ? ? E2 R2 cb cq ci C2 En2 X2|? ? ? ? y1 h ? ? E2 R2 cb cq ci C2 X2]; [lia| |]; subst cb cq ci; subst;
    assert (Q : q = obj_spec o H (part (js x))) by lia; assert (Q' : q = obj_spec o H (part (js y))) by (destruct EQ as [EP _]; rewrite <- EP; exact Q);
    destruct (jround_det dr x y x1 y1 g h (ji_rd _ _ _ J) (ji_rd _ _ _ J') EQ R R2) as [EQ1 <-];
    destruct (step_inv P0 dr q x b x1 g _ J Q R eq_refl) as [Q1 J1]; destruct (step_inv P1 dr q y b y1 g _ J' Q' R2 eq_refl) as [Q1' J1'];
    destruct (jround_ok _ _ _ _ (ji_rd _ _ _ J) R) as (D1 & _ & _); destruct (jround_ok _ _ _ _ (ji_rd _ _ _ J') R2) as (D2 & _ & _);
    pose proof (isbal_P H k L large_k removed _ D1) as B1; pose proof (isbal_P H k L large_k removed _ D2) as B2; pose proof (wts_P H k L _ D1) as W1; pose proof (wts_P H k L _ D2) as W2;
    pose proof (proj1 EQ1) as EP1; rewrite EP1, <- B2 in B1; rewrite EP1, <- W2 in W1.
    + rewrite C in J1. rewrite C2 in J1'. unfold bst in J1, J1'. cbn [Jet.bp] in *. apply (IH y1 y' c' J1); [|lia|exact EQ1|].
      * rewrite B1, W1, (proj1 EQ). exact J1'.
      * rewrite B1, W1, (proj1 EQ). exact X2.
    + exfalso. rewrite B1, W1 in C. congruence.
  - subst b1 q1 i1.
    assert (BE : (if cur b then part (js x) else bp b) = (if cur b then part (js y) else bp b)) by (destruct EQ as [EP _]; rewrite EP; reflexivity).
    inversion Y as [? ? ? ? E2|? ? ? ? y1 h ? ? ? E2 R2 cb cq ci C2 En2 X2|? ? ? ? y1 h ? ? E2 R2 cb cq ci C2 X2]; [lia| |]; subst cb cq ci; subst;
    assert (Q : q = obj_spec o H (part (js x))) by lia; assert (Q' : q = obj_spec o H (part (js y))) by (destruct EQ as [EP _]; rewrite <- EP; exact Q);
    destruct (jround_det dr x y x1 y1 g h (ji_rd _ _ _ J) (ji_rd _ _ _ J') EQ R R2) as [EQ1 <-];
    destruct (step_inv P0 dr q x b x1 g _ J Q R eq_refl) as [Q1 J1]; destruct (step_inv P1 dr q y b y1 g _ J' Q' R2 eq_refl) as [Q1' J1'];
    destruct (jround_ok _ _ _ _ (ji_rd _ _ _ J) R) as (D1 & _ & _); destruct (jround_ok _ _ _ _ (ji_rd _ _ _ J') R2) as (D2 & _ & _);
    pose proof (isbal_P H k L large_k removed _ D1) as B1; pose proof (isbal_P H k L large_k removed _ D2) as B2; pose proof (wts_P H k L _ D1) as W1; pose proof (wts_P H k L _ D2) as W2;
    pose proof (proj1 EQ1) as EP1; rewrite EP1, <- B2 in B1; rewrite EP1, <- W2 in W1.
    + exfalso. rewrite B1, W1 in C. congruence.
    + rewrite C in J1. rewrite C2 in J1'. unfold bst in J1, J1'. cbn [Jet.bp] in *. apply (IH y1 y' c' J1); [|lia|exact EQ1|].
      * rewrite (proj1 EQ). exact J1'.
      * rewrite (proj1 EQ). exact X2.
Qed.
Lemma jdyn_det P0 P1 N : forall dr m x b x' b', jdyn N dr m x b x' b' -> forall y y' c', JI P0 x b -> JI P1 y b -> cur b = true -> jeq x y -> jdyn N dr m y b y' c' -> jeq x' y' /\ b' = c'.
Proof.
  assert (RS : forall P x b, JI P x b -> cur b = true -> JI P (mkJ (js x) (fun _ => false) (jhv x)) b /\ bq b = obj_spec o H (part (js x))).
  { intros P x b [RD SM BS BC BK BQ BI BW BM] C. split; [constructor; unfold bst in *; cbn [js]; auto|]. rewrite BQ. unfold bst. rewrite C. reflexivity. }
  induction 1 as [dr x b|dr m x b x1 b1 x2 b2 R C X IH|dr m x b x1 b1 s2 g x2 b2 R C AP X IH]; intros y y' c' J J' CB EQ Y.
  - inversion Y; subst. auto.
  - destruct (RS P0 x b J CB) as [J0 Q0]. destruct (RS P1 y b J' CB) as [J0' Q0'].
    assert (EQ0 : jeq (mkJ (js x) (fun _ => false) (jhv x)) (mkJ (js y) (fun _ => false) (jhv y))) by (destruct EQ as (E1 & E2 & E3); unfold jeq; cbn; auto).
    inversion Y as [|? ? ? ? y1 c1 ? ? R2 C2 X2|? ? ? ? y1 c1 t2 h ? ? R2 C2 AP2 X2]; subst; destruct (jrounds_det P0 P1 _ _ _ _ _ _ _ _ R _ _ _ J0 J0' (proj2 (Z.sub_move_0_r _ _) Q0) EQ0 R2) as [EQ1 <-]; [|congruence].
    apply (IH y1 y' c'); [apply (jrounds_ok P0 _ _ _ _ _ _ _ _ R J0 Q0)|apply (jrounds_ok P1 _ _ _ _ _ _ _ _ R2 J0' Q0')|exact C|exact EQ1|exact X2].
  - destruct (RS P0 x b J CB) as [J0 Q0]. destruct (RS P1 y b J' CB) as [J0' Q0'].
    assert (EQ0 : jeq (mkJ (js x) (fun _ => false) (jhv x)) (mkJ (js y) (fun _ => false) (jhv y))) by (destruct EQ as (E1 & E2 & E3); unfold jeq; cbn; auto).
    inversion Y as [|? ? ? ? y1 c1 ? ? R2 C2 X2|? ? ? ? y1 c1 t2 h ? ? R2 C2 AP2 X2]; subst; destruct (jrounds_det P0 P1 _ _ _ _ _ _ _ _ R _ _ _ J0 J0' (proj2 (Z.sub_move_0_r _ _) Q0) EQ0 R2) as [EQ1 <-]; [congruence|].
    destruct (roll_ok P0 x1 b1 s2 g (jrounds_ok P0 _ _ _ _ _ _ _ _ R J0 Q0) C AP) as [E1 J1]. destruct (roll_ok P1 y1 b1 t2 h (jrounds_ok P1 _ _ _ _ _ _ _ _ R2 J0' Q0') C AP2) as [E2 J2].
    apply (IH (mkJ t2 (jlk y1) (jhv y1)) y' c'); [apply J1|apply J2|reflexivity| |exact X2]. destruct EQ1 as (_ & EL & EH). unfold jeq. cbn. split; [congruence|auto].
Qed.
(** *** Termination *)
Hypothesis dlt_irr : forall a, dlt a a = false.
Hypothesis EW : forall e, 0 <= ew H e.
Definition allvecs : list (list Z) := vecs k (Z.to_nat (total_weight H)).
Definition rank (d : D) : nat := length (filter (fun w => dlt (imb w) d) allvecs).
Lemma rank_dec P d : dlt (imb (wtsP P)) d = true -> (rank (imb (wtsP P)) < rank d)%nat.
Proof.
  intros E. unfold rank. apply filter_strict with (x := wtsP P).
  - intros w Hw. eapply dlt_trans; eassumption.
  - unfold allvecs. assert (LN : length (wtsP P) = k) by (unfold JetThms.wtsP; rewrite map_length, seq_length; reflexivity). enough (X : In (wtsP P) (vecs (length (wtsP P)) (Z.to_nat (total_weight H)))) by (rewrite LN in X; exact X). apply vecs_in. intros z Hz. apply in_map_iff in Hz. destruct Hz as (b & <- & _).
    destruct IN as [Wn Wt _ _]. pose proof (bw_range H P b Wn). lia.
  - apply dlt_irr.
  - exact E.
Qed.
(** Lexicographic induction: balanced, then the quality or the rank of the imbalance, then the rounds without improvement. *)
Definition sumw : Z := sumZ (ew H) (edges H).
Lemma tot_was P0 dr N : forall M m n q x b, JI P0 x b -> q = obj_spec o H (part (js x)) -> was b = true -> bq b + sumw < Z.of_nat M -> (N - n <= m)%nat -> exists x' b', jrounds dr N n q x b x' b'.
Proof.
  induction M as [|M IHM]; intros m n q x b J Q W B Hm.
  - exfalso. pose proof (obj_low o H (bst x b) EW). rewrite <- (ji_q _ _ _ J) in H0. unfold sumw in B. lia.
  - revert n q x b J Q W B Hm. induction m as [|m IHm]; intros n q x b J Q W B Hm; [exists x, b; apply jr_stop; lia|].
    destruct (Nat.le_gt_cases N n) as [E|E]; [exists x, b; apply jr_stop; exact E|].
    destruct (jround_total dr x (ji_rd _ _ _ J)) as (x1 & g & R). destruct (step_inv P0 dr q x b x1 g _ J Q R eq_refl) as [Q1 J1].
    destruct ((q - g <? bq b) && was b && isbal (js x1) || negb (was b) && dlt (imb (wts (js x1))) (bi b)) eqn:C.
    + assert (LT : q - g < bq b). { rewrite W in C. cbn [negb andb] in C. rewrite orb_false_r, !andb_true_iff in C. destruct C as [[C _] _]. apply Z.ltb_lt in C. exact C. }
      destruct (IHM N (if big (bq b) (q - g) then 0%nat else S n) (q - g) x1 _ J1 Q1) as (x2 & b2 & X); cbn [Jet.was Jet.bq]; [rewrite W; reflexivity|lia|destruct (big _ _); lia|].
      exists x2, b2. eapply jr_better; [exact E|exact R|exact C|reflexivity|exact X].
    + destruct (IHm (S n) (q - g) x1 _ J1 Q1) as (x2 & b2 & X); cbn [Jet.was Jet.bq]; [exact W|lia|lia|]. exists x2, b2. eapply jr_worse; [exact E|exact R|exact C|exact X].
Qed.
Lemma tot_any P0 dr N : forall M m n q x b, JI P0 x b -> q = obj_spec o H (part (js x)) -> (rank (bi b) < M)%nat -> (N - n <= m)%nat -> exists x' b', jrounds dr N n q x b x' b'.
Proof.
  induction M as [|M IHM]; intros m n q x b J Q B Hm; [lia|].
  revert n q x b J Q B Hm. induction m as [|m IHm]; intros n q x b J Q B Hm; [exists x, b; apply jr_stop; lia|].
  destruct (was b) eqn:W. { apply (tot_was P0 dr N (Z.to_nat (bq b + sumw + 1)) (S m) n q x b J Q W); [|exact Hm]. pose proof (obj_low o H (bst x b) EW). rewrite <- (ji_q _ _ _ J) in H0. unfold sumw in *. lia. }
  destruct (Nat.le_gt_cases N n) as [E|E]; [exists x, b; apply jr_stop; exact E|].
  destruct (jround_total dr x (ji_rd _ _ _ J)) as (x1 & g & R). destruct (step_inv P0 dr q x b x1 g _ J Q R eq_refl) as [Q1 J1]. destruct (jround_ok _ _ _ _ (ji_rd _ _ _ J) R) as (D1 & _ & _).
  destruct ((q - g <? bq b) && was b && isbal (js x1) || negb (was b) && dlt (imb (wts (js x1))) (bi b)) eqn:C.
  - assert (LT : (rank (imb (wts (js x1))) < rank (bi b))%nat). { rewrite W in C. cbn [negb andb] in C. rewrite andb_false_r in C. cbn [andb orb] in C. rewrite (wts_P H k L _ D1) in *. apply rank_dec. exact C. }
    destruct (IHM N (if big (bq b) (q - g) then 0%nat else S n) (q - g) x1 _ J1 Q1) as (x2 & b2 & X); cbn [Jet.bi]; [lia|destruct (big _ _); lia|].
    exists x2, b2. eapply jr_better; [exact E|exact R|exact C|reflexivity|exact X].
  - destruct (IHm (S n) (q - g) x1 _ J1 Q1) as (x2 & b2 & X); cbn [Jet.bi]; [lia|lia|]. exists x2, b2. eapply jr_worse; [exact E|exact R|exact C|exact X].
Qed.
Theorem jdyn_total P0 N : forall m dr x b, JI P0 x b -> cur b = true -> exists x' b', jdyn N dr m x b x' b'.
Proof.
  induction m as [|m IH]; intros dr x b J C; [exists x, b; apply jd_end|].
  assert (J0 : JI P0 (mkJ (js x) (fun _ => false) (jhv x)) b) by (destruct J as [RD SM BS BC BK BQ BI BW BM]; constructor; unfold bst in *; cbn [js]; auto).
  assert (Q0 : bq b = obj_spec o H (part (js x))). { rewrite (ji_q _ _ _ J). unfold bst. rewrite C. reflexivity. }
  destruct (tot_any P0 dr N (S (rank (bi b))) N 0 (bq b) _ b J0 Q0) as (x1 & b1 & R); [lia|lia|]. pose proof (jrounds_ok P0 _ _ _ _ _ _ _ _ R J0 Q0) as J1.
  destruct (cur b1) eqn:C1.
  - destruct (IH (S dr) x1 b1 J1 C1) as (x2 & b2 & X). exists x2, b2. eapply jd_keep; eassumption.
  - pose proof IN as [Wn Wt SK SI]. assert (BC : complete H (bp b1) k) by (pose proof (ji_bc _ _ _ J1) as Y; unfold bst in Y; rewrite C1 in Y; exact Y).
    destruct (apply_total H k o _ (js x1) (ji_rd _ _ _ J1) (back_legal _ _ (ji_rd _ _ _ J1) BC)) as (s2 & g & AP).
    destruct (roll_ok P0 x1 b1 s2 g J1 C1 AP) as [_ J2]. destruct (IH (S dr) _ _ (J2 (jlk x1) (jhv x1)) eq_refl) as (x2 & b2 & X). exists x2, b2. eapply jd_roll; eassumption.
Qed.
End Run.
