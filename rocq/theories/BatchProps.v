(** C80: the batch uncontraction hierarchy.
    /repo/mt-kahypar/datastructures/contraction_tree.{h,cpp}
    (createBatchUncontractionHierarchyForVersion, BatchIndexAssigner). *)
From Coq Require Import List Arith Lia Bool Permutation Sorted.
From Verif Require Import Base Batch BatchSort BatchThr BatchSys INARep INAOps2.
Import ListNotations.
Local Open Scope nat_scope.

(** ** Specification *)

(** A finished contraction forest: acyclic; a node is contracted in a version
    that is not later than the version in which its parent is contracted
    ([None]: the node is never contracted). *)
Record forest_ok (t : ctree) : Prop := {
  f_range : forall v, v < ct_n t -> ct_parent t v < ct_n t;
  f_depth : exists d : nat -> nat, forall v, v < ct_n t -> ct_parent t v <> v -> d (ct_parent t v) < d v;
  f_root : forall v, v < ct_n t -> ct_parent t v = v -> ct_ver t v = None;
  f_ver : forall v k, v < ct_n t -> ct_parent t v <> v -> ct_ver t v = Some k ->
          ct_ver t (ct_parent t v) = None \/ exists j, ct_ver t (ct_parent t v) = Some j /\ k <= j }.

(** the nodes contracted in version k *)
Definition contracted (t : ctree) (k : nat) : list nat :=
  filter (fun v => match ct_ver t v with Some j => j =? k | None => false end) (seq 0 (ct_n t)).

(** ** Proofs *)
Definition recv (th : thr) : list nat := map a_v (tasg th) ++ cgrp (tpcr th).

Section Fin.
Variables (t : ctree) (k mx : nat) (dist : list (list nat)) (s : assigner) (ts : list thr).
Hypothesis (W : forest_ok t) (Hmx : 0 < mx) (R : brun t k mx dist s ts).

Lemma roots_not_k rs r : In rs dist -> In r rs -> ct_ver t r <> Some k.
Proof.
  intros H1 H2 Ev. destruct (brun_ok t k mx dist s ts Hmx R) as (HP & _).
  assert (Hi : In r (version_roots t k)).
  { eapply Permutation_in; [exact HP|]. apply in_concat. eauto. }
  apply version_roots_in in Hi. destruct Hi as (_ & L & _). rewrite Ev in L. unfold vlt in L. rewrite Nat.ltb_irrefl in L. discriminate.
Qed.

Lemma thr_of th : In th ts -> exists rs, In (rs, th) (combine dist ts) /\ In rs dist /\ thr_ok t k rs th /\ pcok s th.
Proof.
  destruct (brun_ok t k mx dist s ts Hmx R) as (_ & F & _). clear R.
  induction F as [|rs th0 d ts' [H1 H2] F IH]; intros Hi; [destruct Hi|]. destruct Hi as [->|Hi].
  - exists rs. cbn. auto.
  - destruct (IH Hi) as (rs' & A & B & C & D). exists rs'. cbn. auto 6.
Qed.
Lemma thr_of_root r rs : In rs dist -> In r rs -> exists th, In (rs, th) (combine dist ts) /\ In th ts.
Proof.
  destruct (brun_ok t k mx dist s ts Hmx R) as (_ & F & _). clear R.
  induction F as [|rs0 th0 d ts' _ F IH]; intros Hd Hr; [destruct Hd|]. destruct Hd as [->|Hd].
  - exists th0. cbn. auto.
  - destruct (IH Hd Hr) as (th & A & B). exists th. cbn. auto.
Qed.
Lemma comb_ok rs th : In (rs, th) (combine dist ts) -> In rs dist /\ In th ts /\ thr_ok t k rs th /\ pcok s th.
Proof.
  destruct (brun_ok t k mx dist s ts Hmx R) as (_ & F & _). clear R.
  induction F as [|rs0 th0 d ts' [H1 H2] F IH]; intros Hi; [destruct Hi|]. destruct Hi as [E|Hi].
  - injection E as <- <-. cbn. auto.
  - destruct (IH Hi) as (A & B & C). cbn. auto.
Qed.

Lemma rec_facts rs th x : thr_ok t k rs th -> In x (recv th) ->
  x < ct_n t /\ ct_parent t x <> x /\ ct_ver t x = Some k /\
  (In (ct_parent t x) rs \/ In (ct_parent t x) (recv th)).
Proof. intros H Hx. apply (v_ok _ _ _ _ _ _ _ _ _ H). rewrite app_assoc. apply in_or_app. left. exact Hx. Qed.

Lemma root_unique rs1 th1 rs2 th2 r : In (rs1, th1) (combine dist ts) -> In (rs2, th2) (combine dist ts) ->
  In r rs1 -> In r rs2 -> th1 = th2.
Proof.
  destruct (brun_ok t k mx dist s ts Hmx R) as (HP & _ & _).
  assert (ND : NoDup (concat dist)) by (eapply Permutation_NoDup; [symmetry; exact HP|apply version_roots_nodup]).
  clear HP R. revert ts. induction dist as [|rs d IH]; intros [|th ts']; cbn; try tauto.
  cbn in ND. intros [E1|H1] [E2|H2] R1 R2.
  - congruence.
  - exfalso. injection E1 as -> ->. apply (NoDup_app_disj _ _ ND r R1). apply in_concat. exists rs2.
    split; [apply (in_combine_l _ _ _ _ H2)|exact R2].
  - exfalso. injection E2 as -> ->. apply (NoDup_app_disj _ _ ND r R2). apply in_concat. exists rs1.
    split; [apply (in_combine_l _ _ _ _ H1)|exact R1].
  - apply (IH (NoDup_app_remove_l _ _ ND) ts' H1 H2 R1 R2).
Qed.

(** a node belongs to one thread only *)
Lemma same_thr rs1 th1 rs2 th2 : In (rs1, th1) (combine dist ts) -> In (rs2, th2) (combine dist ts) ->
  forall x, (In x rs1 \/ In x (recv th1)) -> (In x rs2 \/ In x (recv th2)) -> th1 = th2.
Proof.
  intros C1 C2. destruct (f_depth t W) as [d Hd].
  destruct (comb_ok _ _ C1) as (D1 & _ & O1 & _). destruct (comb_ok _ _ C2) as (D2 & _ & O2 & _).
  assert (X : forall n x, d x < n -> (In x rs1 \/ In x (recv th1)) -> (In x rs2 \/ In x (recv th2)) -> th1 = th2).
  { induction n as [|n IH]; intros x Hx; [lia|]. intros [A|A] [B|B].
    - eapply root_unique; eauto.
    - exfalso. apply (roots_not_k rs1 x D1 A). apply (rec_facts rs2 th2 x O2 B).
    - exfalso. apply (roots_not_k rs2 x D2 B). apply (rec_facts rs1 th1 x O1 A).
    - destruct (rec_facts rs1 th1 x O1 A) as (Lx & Nx & _ & P1). destruct (rec_facts rs2 th2 x O2 B) as (_ & _ & _ & P2).
      apply (IH (ct_parent t x)); auto. pose proof (Hd x Lx Nx). lia. }
  intros x. apply (X (S (d x))). lia.
Qed.

Lemma rec_nodup : NoDup (flat_map recv ts).
Proof.
  pose proof same_thr as Q0. pose proof comb_ok as K0.
  destruct (brun_ok t k mx dist s ts Hmx R) as (HP & F & _).
  assert (ND : NoDup (concat dist)) by (eapply Permutation_NoDup; [symmetry; exact HP|apply version_roots_nodup]).
  assert (Hk : forall rs r, In rs dist -> In r rs -> ct_ver t r <> Some k) by exact roots_not_k.
  clear HP R Q0 K0. destruct (f_depth t W) as [d Hd].
  induction F as [|rs th ds ts' [O P] F IH]; cbn [flat_map]; [constructor|].
  cbn in ND. apply NoDup_app_i.
  - pose proof (v_nd _ _ _ _ _ _ _ _ _ O) as N. rewrite app_assoc in N. apply (NoDup_app_remove_r _ _ N).
  - apply IH; [apply (NoDup_app_remove_l _ _ ND)|]. intros rs0 r H1 H2. apply (Hk rs0 r); [right; exact H1|exact H2].
  - intros x Hx Hx2. apply in_flat_map in Hx2. destruct Hx2 as (th2 & Ht2 & Hx2).
    assert (G : exists rs2, In rs2 ds /\ thr_ok t k rs2 th2).
    { clear - F Ht2. induction F as [|a b l l' [Ho _] F IH]; [destruct Ht2|]. destruct Ht2 as [->|Ht2].
      - exists a. split; [left; reflexivity|exact Ho].
      - destruct (IH Ht2) as (r2 & A & B). exists r2. split; [right; exact A|exact B]. }
    destruct G as (rs2 & D2 & O2).
    assert (X : forall n x, d x < n -> In x (recv th) -> In x (recv th2) -> False).
    { clear x Hx Hx2. induction n as [|n IHn]; intros x Hx A B; [lia|].
      destruct (rec_facts rs th x O A) as (Lx & Nx & _ & P1). destruct (rec_facts rs2 th2 x O2 B) as (_ & _ & _ & P2).
      pose proof (Hd x Lx Nx). destruct P1 as [P1|P1], P2 as [P2|P2].
      - apply (NoDup_app_disj _ _ ND _ P1). apply in_concat. eauto.
      - apply (Hk rs _ (or_introl eq_refl) P1). apply (rec_facts rs2 th2 _ O2 P2).
      - apply (Hk rs2 _ (or_intror D2) P2). apply (rec_facts rs th _ O P1).
      - apply (IHn (ct_parent t x)); auto. lia. }
    apply (X (S (d x)) x); auto.
Qed.
End Fin.

Lemma finished_rec t k mx dist s ts : brun t k mx dist s ts -> 0 < mx -> finished ts ->
  forall th, In th ts -> recv th = map a_v (tasg th) /\ pendl t k (tq th ++ tnq th) = [] /\ ent th = tasg th /\ entS th = tasg th.
Proof.
  intros R Hmx Fi th Ht. destruct (Fi th Ht) as [E1 E2].
  destruct (thr_of t k mx dist s ts Hmx R th Ht) as (rs & _ & _ & _ & P). unfold pcok in P. rewrite E2 in P.
  unfold recv, ent, entS. rewrite E2, E1, (P E1). cbn. rewrite !app_nil_r. auto.
Qed.
Lemma map_flat {A B C} (g : B -> C) (f : A -> list B) l : map g (flat_map f l) = flat_map (fun x => map g (f x)) l.
Proof. induction l as [|x l IH]; cbn; [reflexivity|]. rewrite map_app, IH. reflexivity. Qed.
Lemma flat_ext {A B} (f g : A -> list B) l : (forall x, In x l -> f x = g x) -> flat_map f l = flat_map g l.
Proof. induction l as [|x l IH]; cbn; intros H; [reflexivity|]. rewrite H, IH; auto. Qed.

(** ** The theorems *)

(** Every node contracted in version k is in exactly one batch, exactly once,
    together with its representative - for every interleaving of the threads
    and every distribution of the roots over them. *)
Theorem C80_complete t k mx dist s ts : forest_ok t -> 0 < mx ->
  brun t k mx dist s ts -> finished ts ->
  Permutation (map a_v (assignments ts)) (contracted t k) /\
  forall a, In a (assignments ts) -> a_u a = ct_parent t (a_v a).
Proof.
  intros W Hmx R Fi. pose proof (finished_rec t k mx dist s ts R Hmx Fi) as FR.
  assert (Er : flat_map recv ts = map a_v (assignments ts)).
  { unfold assignments. rewrite map_flat. apply flat_ext. intros th Ht. apply (FR th Ht). }
  split.
  - apply NoDup_Permutation.
    + rewrite <- Er. apply (rec_nodup t k mx dist s ts W Hmx R).
    + apply NoDup_filter, seq_NoDup.
    + intros x. unfold contracted. rewrite filter_In, in_seq, <- Er. split.
      * intros Hx. apply in_flat_map in Hx. destruct Hx as (th & Ht & Hx).
        destruct (thr_of t k mx dist s ts Hmx R th Ht) as (rs & _ & _ & O & _).
        destruct (rec_facts t k rs th x O Hx) as (A & _ & B & _). rewrite B, Nat.eqb_refl. split; [lia|reflexivity].
      * intros [Hx Hk]. assert (Ek : ct_ver t x = Some k).
        { destruct (ct_ver t x) as [j|]; [|discriminate]. apply Nat.eqb_eq in Hk. congruence. }
        clear Hk. destruct (f_depth t W) as [d Hd].
        assert (X : forall n x, d x < n -> x < ct_n t -> ct_ver t x = Some k -> In x (flat_map recv ts)).
        { clear x Hx Ek. induction n as [|n IH]; intros x Hn Hx Ek; [lia|].
          assert (Np : ct_parent t x <> x) by (intros E; rewrite (f_root t W x Hx E) in Ek; discriminate).
          pose proof (Hd x Hx Np) as Hdx. pose proof (f_range t W x Hx) as Hp.
          assert (K : forall rs th, In th ts -> thr_ok t k rs th ->
              (In (ct_parent t x) rs \/ In (ct_parent t x) (recv th)) -> In x (flat_map recv ts)).
          { intros rs th Ht O Hin. apply in_flat_map. exists th. split; [exact Ht|].
            pose proof (v_all _ _ _ _ _ _ _ _ _ O (ct_parent t x) Hin x Hx eq_refl (not_eq_sym Np) Ek) as Y.
            destruct (FR th Ht) as (F1 & F2 & _). rewrite F2, app_nil_r in Y. exact Y. }
          destruct (f_ver t W x k Hx Np Ek) as [E|(j & E & Hj)].
          - assert (Hr : In (ct_parent t x) (version_roots t k)).
            { apply version_roots_in. rewrite E. split; [exact Hp|]. split; [reflexivity|]. exists x. auto. }
            destruct (brun_ok t k mx dist s ts Hmx R) as (HP & _ & _).
            apply (Permutation_in _ (Permutation_sym HP)) in Hr. apply in_concat in Hr. destruct Hr as (rs & D & Hr).
            destruct (thr_of_root t k mx dist s ts Hmx R _ rs D Hr) as (th & C & Ht).
            destruct (comb_ok t k mx dist s ts Hmx R _ _ C) as (_ & _ & O & _). eapply K; eauto.
          - destruct (Nat.eq_dec j k) as [->|Nj].
            + assert (Hi : In (ct_parent t x) (flat_map recv ts)) by (apply IH; [lia|exact Hp|exact E]).
              apply in_flat_map in Hi. destruct Hi as (th & Ht & Hi).
              destruct (thr_of t k mx dist s ts Hmx R th Ht) as (rs & _ & _ & O & _). eapply K; eauto.
            + assert (Hr : In (ct_parent t x) (version_roots t k)).
              { apply version_roots_in. rewrite E. split; [exact Hp|].
                split; [unfold vlt; apply Nat.ltb_lt; lia|]. exists x. auto. }
              destruct (brun_ok t k mx dist s ts Hmx R) as (HP & _ & _).
              apply (Permutation_in _ (Permutation_sym HP)) in Hr. apply in_concat in Hr. destruct Hr as (rs & D & Hr).
              destruct (thr_of_root t k mx dist s ts Hmx R _ rs D Hr) as (th & C & Ht).
              destruct (comb_ok t k mx dist s ts Hmx R _ _ C) as (_ & _ & O & _). eapply K; eauto. }
        apply (X (S (d x)) x); [lia|lia|exact Ek].
  - intros a Ha. unfold assignments in Ha. apply in_flat_map in Ha. destruct Ha as (th & Ht & Ha).
    destruct (thr_of t k mx dist s ts Hmx R th Ht) as (rs & _ & _ & O & _).
    apply (v_asg _ _ _ _ _ _ _ _ _ O a Ha).
Qed.

(** Batches are uncontracted in the order of their index.  A node comes after
    its representative: the representative exists when the node is uncontracted. *)
Theorem C80_parent_first t k mx dist s ts a c : forest_ok t -> 0 < mx ->
  brun t k mx dist s ts -> In a (assignments ts) -> In c (assignments ts) ->
  ct_parent t (a_v c) = a_v a -> a_b a < a_b c.
Proof.
  intros W Hmx R Ha Hc E. unfold assignments in *. apply in_flat_map in Ha. apply in_flat_map in Hc.
  destruct Ha as (th1 & T1 & Ha), Hc as (th2 & T2 & Hc).
  destruct (thr_of t k mx dist s ts Hmx R th1 T1) as (rs1 & C1 & _ & O1 & _).
  destruct (thr_of t k mx dist s ts Hmx R th2 T2) as (rs2 & C2 & _ & O2 & _).
  assert (th1 = th2).
  { apply (same_thr t k mx dist s ts W Hmx R rs1 th1 rs2 th2 C1 C2 (a_v a)).
    - right. apply in_or_app. left. apply in_map. exact Ha.
    - rewrite <- E. apply (rec_facts t k rs2 th2 (a_v c) O2). apply in_or_app. left. apply in_map. exact Hc. }
  subst th2. apply (v_par _ _ _ _ _ _ _ _ _ O1 a c Ha Hc E).
Qed.

(** Siblings: if one is uncontracted in an earlier batch than the other, the
    contraction of the other one had ended before its own contraction started.
    So contractions that may have run at the same time are in one batch, and
    otherwise the one contracted last is uncontracted first. *)
Theorem C80_sibling_order t k mx dist s ts a c : forest_ok t -> 0 < mx ->
  brun t k mx dist s ts -> In a (assignments ts) -> In c (assignments ts) ->
  ct_parent t (a_v a) = ct_parent t (a_v c) -> a_b a < a_b c ->
  ct_end t (a_v c) < ct_start t (a_v a).
Proof.
  intros W Hmx R Ha Hc E L. unfold assignments in *. apply in_flat_map in Ha. apply in_flat_map in Hc.
  destruct Ha as (th1 & T1 & Ha), Hc as (th2 & T2 & Hc).
  destruct (thr_of t k mx dist s ts Hmx R th1 T1) as (rs1 & C1 & _ & O1 & _).
  destruct (thr_of t k mx dist s ts Hmx R th2 T2) as (rs2 & C2 & _ & O2 & _).
  assert (th1 = th2).
  { apply (same_thr t k mx dist s ts W Hmx R rs1 th1 rs2 th2 C1 C2 (ct_parent t (a_v a))).
    - apply (rec_facts t k rs1 th1 (a_v a) O1). apply in_or_app. left. apply in_map. exact Ha.
    - rewrite E. apply (rec_facts t k rs2 th2 (a_v c) O2). apply in_or_app. left. apply in_map. exact Hc. }
  subst th2. apply (v_sib _ _ _ _ _ _ _ _ _ O1 a c Ha Hc E L).
Qed.

Lemma down_spec s B : (forall b, b < B <-> 0 < siz s b) -> forall h, h <= B -> siz s h = 0 ->
  (if 0 <? siz s (down s h) then S (down s h) else down s h) = B.
Proof.
  intros HB. induction h as [|h IH]; intros Hh E; cbn [down].
  - rewrite E. cbn. destruct B as [|B]; [reflexivity|]. specialize (HB 0). lia.
  - rewrite E. cbn [Nat.eqb].
    assert (B <= S h) by (destruct (Nat.lt_ge_cases (S h) B) as [X|X]; [apply HB in X; lia|exact X]).
    destruct (Nat.eq_dec (siz s h) 0) as [E0|E0].
    + assert (h <= B) by lia. rewrite <- (IH H0 E0) at 1. reflexivity.
    + assert (Eh : down s h = h) by (destruct h; cbn [down]; [reflexivity|destruct (Nat.eqb_spec (siz s (S h)) 0); [contradiction|reflexivity]]).
      rewrite Eh. destruct (Nat.ltb_spec 0 (siz s h)) as [X|X]; [|lia]. apply HB in X. lia.
Qed.
Lemma upw_spec s B : (forall b, b < B <-> 0 < siz s b) -> forall f h, h <= B -> B <= h + f -> upw f s h = B.
Proof.
  intros HB. induction f as [|f IH]; intros h Hh Hf; cbn [upw]; [lia|].
  destruct (Nat.ltb_spec 0 (siz s h)) as [X|X].
  - apply HB in X. apply IH; lia.
  - destruct (Nat.eq_dec h B) as [E|E]; [exact E|]. assert (h < B) by lia. apply HB in H. lia.
Qed.

(** The batches are gap-free: there are [numberOfNonEmptyBatches] of them, none
    is empty, and the positions handed out in batch b are 0 .. size-1, each
    once - so every slot of the batch vectors is written exactly once.  After
    [reset] the assigner is as new. *)
Theorem C80_positions t k mx dist s ts : forest_ok t -> 0 < mx ->
  brun t k mx dist s ts -> finished ts ->
  exists B, (forall f, ct_n t <= f -> numberOfNonEmptyBatches f s = B) /\
    (forall b, b < B <-> 0 < siz s b) /\
    (forall b, Permutation (map a_pos (filter (fun a => a_b a =? b) (assignments ts))) (seq 0 (siz s b))) /\
    (forall i, cnt (assigner_reset s B) i = 0 /\ siz (assigner_reset s B) i = 0) /\
    B <= ct_n t.
Proof.
  intros W Hmx R Fi. pose proof (finished_rec t k mx dist s ts R Hmx Fi) as FR.
  destruct (brun_ok t k mx dist s ts Hmx R) as (_ & _ & tot & B & I).
  assert (E1 : flat_map ent ts = assignments ts) by (apply flat_ext; intros th Ht; apply (FR th Ht)).
  assert (E2 : flat_map entS ts = assignments ts) by (apply flat_ext; intros th Ht; apply (FR th Ht)).
  destruct I as [H1 H2 H3 H4 H5 H6 H7]. rewrite E1 in H1. rewrite E2 in H3.
  assert (Et : forall i, tot i = siz s i).
  { intros i. pose proof (Permutation_length (H1 i)) as L. rewrite map_length, seq_length in L. rewrite H3. auto. }
  assert (HB : forall b, b < B <-> 0 < siz s b).
  { intros b. rewrite <- Et. split; [apply H4|]. intros X. destruct (Nat.lt_ge_cases b B) as [Y|Y]; [exact Y|].
    destruct (H5 b Y). lia. }
  assert (Hlen : B <= ct_n t).
  { assert (A1 : length (assignments ts) <= ct_n t).
    { destruct (C80_complete t k mx dist s ts W Hmx R Fi) as [P _]. apply Permutation_length in P. rewrite map_length in P.
      rewrite P. unfold contracted. clear. generalize (seq_length (ct_n t) 0).
      assert (X : forall (f : nat -> bool) l, length (filter f l) <= length l).
      { intros f l. induction l as [|x l IH]; cbn [filter length]; [lia|]. destruct (f x); cbn [length]; lia. }
      intros L. specialize (X (fun v => match ct_ver t v with Some j => j =? k | None => false end) (seq 0 (ct_n t))). lia. }
    assert (A2 : B <= length (assignments ts)).
    { assert (I1 : incl (seq 0 B) (map a_b (assignments ts))).
      { intros b Hb. apply in_seq in Hb. assert (X : 0 < siz s b) by (apply HB; lia). rewrite H3 in X.
        unfold fb in X. destruct (filter (fun a => a_b a =? b) (assignments ts)) as [|a q] eqn:Eq; [cbn in X; lia|].
        assert (Hin : In a (filter (fun a => a_b a =? b) (assignments ts))) by (rewrite Eq; left; reflexivity).
        apply filter_In in Hin. destruct Hin as [Hin Eb]. apply Nat.eqb_eq in Eb. rewrite <- Eb. apply in_map. exact Hin. }
      pose proof (NoDup_incl_length (seq_NoDup B 0) I1) as L. rewrite seq_length, map_length in L. exact L. }
    lia. }
  exists B. split; [|split; [exact HB|split; [|split; [|exact Hlen]]]].
  - intros f Hf. unfold numberOfNonEmptyBatches. destruct (Nat.eqb_spec (siz s (hwm s)) 0) as [E|E].
    + apply down_spec; assumption.
    + apply upw_spec; [exact HB|exact H6|]. lia.
  - intros b. rewrite <- Et. apply H1.
  - intros i. cbn [assigner_reset cnt siz]. destruct (Nat.ltb_spec i B) as [X|X]; [auto|]. destruct (H5 i X) as [X1 X2].
    split; [exact X2|]. rewrite <- Et. exact X1.
Qed.

(** ** Example: 3 into 1, 1 into 0, 6 into 5, 4 into 0; two threads *)
Definition t7 : ctree := mkCt 7
  (fun v => match v with 1 => 0 | 3 => 1 | 4 => 0 | 6 => 5 | _ => v end)
  (fun v => match v with 1 | 3 | 4 | 6 => Some 0 | _ => None end)
  (fun v => match v with 3 => 0 | 1 => 1 | 6 => 2 | 4 => 3 | _ => 0 end)
  (fun v => match v with 3 => 1 | 1 => 2 | 6 => 3 | 4 => 4 | _ => 0 end).

Fixpoint run2 (t : ctree) (k mx : nat) (sched : list bool) (s : assigner) (a b : thr) : assigner * thr * thr :=
  match sched with
  | [] => (s, a, b)
  | true :: l => match tstep t k mx 0 9 s a with Some (s', a') => run2 t k mx l s' a' b | None => run2 t k mx l s a b end
  | false :: l => match tstep t k mx 0 9 s b with Some (s', b') => run2 t k mx l s' a b' | None => run2 t k mx l s a b end
  end.
Lemma run2_ok t k mx dist sched : forall s a b, brun t k mx dist s [a; b] ->
  let '(s', a', b') := run2 t k mx sched s a b in brun t k mx dist s' [a'; b'].
Proof.
  induction sched as [|[|] l IH]; intros s a b H; cbn [run2]; [exact H| |].
  - destruct (tstep t k mx 0 9 s a) as [[s' a']|] eqn:E; [|apply IH; exact H]. apply IH.
    exact (br_step t k mx dist s [] a [b] 0 9 s' a' H E).
  - destruct (tstep t k mx 0 9 s b) as [[s' b']|] eqn:E; [|apply IH; exact H]. apply IH.
    exact (br_step t k mx dist s [a] b [] 0 9 s' b' H E).
Qed.

Definition sched7 : list bool := flat_map (fun _ => [true; false; true]) (seq 0 40).

Theorem C80_example :
  forest_ok t7 /\
  exists s a b, brun t7 0 2 [[0]; [5]] s [a; b] /\ finished [a; b] /\
    assignments [a; b] = [mkAsn 0 4 0 0; mkAsn 0 1 1 0; mkAsn 1 3 2 0; mkAsn 5 6 0 1] /\
    map (siz s) [0; 1; 2; 3] = [2; 1; 1; 0] /\ numberOfNonEmptyBatches 7 s = 3.
Proof.
  split.
  - split.
    + intros v Hv. cbn in *. do 7 (destruct v as [|v]; [cbn; lia|]). lia.
    + exists (fun v => match v with 1 | 4 | 6 => 1 | 3 => 2 | _ => 0 end). intros v Hv Hn. cbn in *.
      do 7 (destruct v as [|v]; [cbn in *; lia|]). lia.
    + intros v Hv. cbn in *. do 7 (destruct v as [|v]; [cbn; congruence|]). lia.
    + intros v k Hv Hn E. cbn in *. do 7 (destruct v as [|v]; [cbn in *; try congruence; try (left; reflexivity);
        try (right; exists 0; injection E as <-; split; [reflexivity|lia])|]); lia.
  - pose proof (run2_ok t7 0 2 [[0]; [5]] sched7 sh_init (thr_init t7 0 [0]) (thr_init t7 0 [5])) as H.
    destruct (run2 t7 0 2 sched7 sh_init (thr_init t7 0 [0]) (thr_init t7 0 [5])) as [[s a] b] eqn:E.
    exists s, a, b. split; [|].
    + apply H. apply (br_init t7 0 2 [[0]; [5]]). vm_compute. reflexivity.
    + vm_compute in E. injection E as <- <- <-.
      split; [intros th [<-|[<-|[]]]; split; reflexivity|]. vm_compute. auto.
Qed.

(** "It is ensured that batch_position is always smaller than max_batch_size"
    (contraction_tree.h:59-60) does not hold: intervals are compared as closed
    intervals, so contractions onto the same node that follow each other
    directly (end of one = start of the next) join one group, and a group is
    never split.  Sequential coarsening onto one node gives one batch with all
    its contractions, whatever the limit. *)
Definition t_star (n : nat) : ctree := mkCt (S n)
  (fun _ => 0) (fun v => match v with 0 => None | _ => Some 0 end)
  (fun v => v - 1) (fun v => v).

Theorem C80_refuted_batch_size :
  exists s th, brun (t_star 5) 0 1 [[0]] s [th] /\ finished [th] /\
    map (fun a => (a_v a, a_b a, a_pos a)) (tasg th) = [(5,0,0); (4,0,1); (3,0,2); (2,0,3); (1,0,4)].
Proof.
  set (go := fix go f s th := match f with 0 => (s, th) | S f' =>
     match tstep (t_star 5) 0 1 0 9 s th with Some (s', th') => go f' s' th' | None => (s, th) end end).
  assert (G : forall f s th, brun (t_star 5) 0 1 [[0]] s [th] -> brun (t_star 5) 0 1 [[0]] (fst (go f s th)) [snd (go f s th)]).
  { induction f as [|f IH]; intros s th H; cbn; [exact H|].
    destruct (tstep (t_star 5) 0 1 0 9 s th) as [[s' th']|] eqn:E; [|exact H]. apply IH.
    exact (br_step (t_star 5) 0 1 [[0]] s [] th [] 0 9 s' th' H E). }
  pose proof (G 20 sh_init (thr_init (t_star 5) 0 [0])) as H.
  destruct (go 20 sh_init (thr_init (t_star 5) 0 [0])) as [s th] eqn:E. exists s, th. split; [|].
  - apply H. apply (br_init (t_star 5) 0 1 [[0]]). vm_compute. reflexivity.
  - vm_compute in E. injection E as <- <-.
    split; [intros th [<-|[]]; split; reflexivity|]. vm_compute. reflexivity.
Qed.
