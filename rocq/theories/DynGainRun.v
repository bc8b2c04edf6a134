(** Proofs about the gain cache during uncontraction: one batch. *)
From Coq Require Import List Arith ZArith Lia Bool Permutation Sorted.
From Verif Require Import Base INA INARep INAOps2 GainCache GainCacheProofs DynEdge DynEdgeSpec DynEdgeThms DynEdgeBatch DynEdgeRun
  DynGain DynGainSpec DynGainThms.
Import ListNotations.
Local Open Scope nat_scope.

Lemma do_adds_pen l : forall c x, pen (fold_left do_add l c) x = (pen c x + dpen l x)%Z.
Proof.
  induction l as [|a l IH]; intros c x; cbn [fold_left]; [rewrite dpen_nil; lia|]. rewrite IH, dpen_cons.
  destruct a as [y d|y b d]; cbn [do_add add_pen add_ben pen dpen1]; unfold upd.
  - rewrite (Nat.eqb_sym y x). destruct (Nat.eqb_spec x y) as [->|N]; lia.
  - lia.
Qed.
Lemma do_adds_ben l : forall c x b, ben (fold_left do_add l c) x b = (ben c x b + dben l x b)%Z.
Proof.
  induction l as [|a l IH]; intros c x b; cbn [fold_left]; [rewrite dben_nil; lia|]. rewrite IH, dben_cons.
  destruct a as [y d|y b1 d]; cbn [do_add add_pen add_ben ben dben1].
  - lia.
  - unfold upd2, upd. rewrite (Nat.eqb_sym y x), (Nat.eqb_sym b1 b). destruct (Nat.eqb_spec x y) as [->|N]; cbn [andb]; [|lia].
    destruct (Nat.eqb_spec b b1) as [->|N2]; lia.
Qed.

Section Batch.
Variables (U : upolicy) (pt bt : Z -> Z -> Z).
Hypothesis UE : up_exact U pt bt.
Variables (k : nat) (w : Z).
Variables (rank : nat -> nat) (b : nat) (par part : nat -> nat) (V0 lead rest : list nat) (log0 : list ev) (os : list eop).
Hypothesis Hk : forall p, part p < k.
Hypothesis Hlead : forall x, In x lead -> rank x = b.
Hypothesis Hrest : match rest with [] => True | y :: _ => rank y <> b end.
Hypothesis Hpp : forall x, In x lead -> part (par x) = part x.
Hypothesis Hos : forall o, In o os -> o_sh o = false -> In (o_u o) V0 /\ part (o_u o) = part (o_v o).
Hypothesis Hnd : NoDup (map o_u (nonsh os)).
Hypothesis NDA : NoDup ((map o_v (nonsh os) ++ V0 ++ lead) ++ rest).
Hypothesis Hpar : forall x, In x lead -> In (par x) V0.
Hypothesis Huv : forall o o', In o os -> In o' os -> o_u o' <> o_v o.
Local Notation Binv := (binv par part V0 lead rest log0).

Definition okev (pre post : list nat) (x : ev) : Prop :=
  (forall y, dpen (up_adds U k part w x) y = (cpen pt part w post y - cpen pt part w pre y)%Z) /\
  (forall y c, c < k -> dben (up_adds U k part w x) y c = (cben bt part w post y c - cben bt part w pre y c)%Z).

Lemma nonsh_in o l : In o (nonsh l) <-> In o l /\ o_sh o = false.
Proof. unfold nonsh. rewrite filter_In. destruct (o_sh o); cbn; intuition congruence. Qed.

(** the nodes of this batch that are not yet pins *)
Lemma mid_nd ds rd rr s r todo : Binv ds rd rr s r -> Permutation os (ds ++ todo) ->
  NoDup ((map o_u (nonsh ds) ++ valid (p_edge s)) ++ map o_v (nonsh todo) ++ rr).
Proof.
  intros B P. eapply Permutation_NoDup.
  { apply Permutation_app_tail. symmetry. exact (bv_perm _ _ _ _ _ _ _ _ _ _ _ B). }
  apply NoDup_app_remove_r in NDA. eapply Permutation_NoDup; [|exact NDA].
  rewrite (bv_lead _ _ _ _ _ _ _ _ _ _ _ B). rewrite (Permutation_map o_v (nonsh_perm _ _ P)).
  unfold nonsh. rewrite filter_app, map_app. rewrite <- !app_assoc. apply Permutation_app_head.
  rewrite Permutation_app_comm, <- !app_assoc. apply Permutation_app_head. apply Permutation_app_head. apply Permutation_app_comm.
Qed.

Lemma step_gain ds rd rr s todo r s' todo' r' : Binv ds rd rr s r -> Permutation os (ds ++ todo) ->
  bstep rank b par part (s, todo, r) (s', todo', r') ->
  s' = s \/ exists x, p_log s' = p_log s ++ [x] /\ okev (valid (p_edge s)) (valid (p_edge s')) x.
Proof.
  intros B P S. remember (s, todo, r) as X eqn:EX. remember (s', todo', r') as Y eqn:EY.
  pose proof (mid_nd _ _ _ _ _ _ B P) as ND.
  destruct S as [s0 l1 o l2 Es|s0 l1 o l2 r0 Es Hr|s0 os0 pin Hn Hr|s0 os0 Hn|s0 l1 o l2 r0 Es];
    injection EX as -> <- <-; injection EY as <- <- <-; try (left; reflexivity); right.
  - pose proof B as [B1 B2 B3 B4 B5 B6 B7]. rewrite (nth_error_invalid rank b par part lead Hlead Hpp _ B2), B5 in Hn.
    destruct rr as [|x rr].
    { exfalso. cbn in Hn. destruct rest as [|y rest']; [discriminate|]. injection Hn as ->. contradiction. }
    cbn in Hn. injection Hn as ->. cbn [app] in B5.
    destruct (restore_edge rank b par part lead Hlead Hpp s pin (rr ++ rest) B2 B5) as (Ev & Ei & Hl). cbv zeta in *.
    assert (Hpin : In pin lead) by (rewrite B1; apply in_or_app; right; left; reflexivity).
    assert (ND1 : NoDup (valid (p_edge s) ++ [pin])).
    { rewrite <- app_assoc in ND. apply NoDup_app_remove_l in ND.
      apply NoDup_app_i; [exact (NoDup_app_remove_r _ _ ND)|constructor; [intros []|constructor]|].
      intros y Hy [<-|[]]. apply (NoDup_app_disj _ _ ND _ Hy). apply in_or_app. right. left. reflexivity. }
    assert (Hpos : 0 < counts part (valid (p_edge s)) (part pin)).
    { apply counts_pos. rewrite <- (Hpp _ Hpin).
      assert (X : In (par pin) (map o_u (nonsh ds) ++ valid (p_edge s))).
      { apply (Permutation_in _ (Permutation_sym B4)). rewrite !in_app_iff. right. left. exact (Hpar _ Hpin). }
      apply in_app_or in X. destruct X as [X|X]; [|exists (par pin); auto].
      apply in_map_iff in X. destruct X as (o & Eu & Ho). pose proof Ho as Ho2. apply nonsh_in in Ho. destruct Ho as [Ho Es].
      assert (Hoo : In o os) by (apply (Permutation_in _ (Permutation_sym P)); apply in_or_app; left; exact Ho).
      exists (o_v o). split; [|destruct (Hos o Hoo Es) as [_ E]; congruence].
      assert (Y : In (o_v o) (map o_u (nonsh ds) ++ valid (p_edge s))).
      { apply (Permutation_in _ (Permutation_sym B4)). apply in_or_app. left. apply in_map. exact Ho2. }
      apply in_app_or in Y. destruct Y as [Y|Y]; [|exact Y]. exfalso. apply in_map_iff in Y. destruct Y as (o' & E & Ho').
      apply nonsh_in in Ho'. apply (Huv o o'); auto. apply (Permutation_in _ (Permutation_sym P)). apply in_or_app. left. apply Ho'. }
    unfold restore_one. cbn [p_log p_edge]. eexists. split; [reflexivity|]. rewrite Ev.
    destruct (UE k part w (par pin) pin Hk (Hpp _ Hpin)) as [X _].
    destruct (X (valid (p_edge s)) (upd (p_pc s) (part (par pin)) (S (p_pc s (part (par pin))))) ND1) as [X1 X2]; [|exact Hpos|].
    + intros blk. rewrite counts_app, <- B6. unfold upd, counts. cbn [filter].
      rewrite (Hpp _ Hpin). destruct (Nat.eqb_spec blk (part pin)) as [->|N].
      * rewrite Nat.eqb_refl. cbn. lia.
      * destruct (Nat.eqb_spec (part pin) blk); [congruence|]. cbn. lia.
    + split; [exact X1|exact X2].
  - destruct (todo_u _ _ _ _ _ _ _ Hos Hnd ds rd rr s r0 o l1 l2 B P Es) as [Hu Epart].
    pose proof B as [B1 B2 B3 B4 B5 B6 B7].
    destruct (replace_edge rank b par part lead Hlead Hpp s o B2 Hu) as (a & f & Ev & Ev' & Ei' & Hl).
    assert (NV : ~ In (o_v o) (valid (p_edge s)) /\ NoDup (valid (p_edge s))).
    { rewrite <- app_assoc in ND. apply NoDup_app_remove_l in ND. split; [|exact (NoDup_app_remove_r _ _ ND)]. intros X.
      apply (NoDup_app_disj _ _ ND _ X). apply in_or_app. left. apply in_map. apply nonsh_in. split; [|exact Es].
      apply in_or_app. right. left. reflexivity. }
    destruct NV as [NV NDv]. rewrite Ev in NV, NDv.
    exists (mkEv false (o_u o) (o_v o) (valid (p_edge (replace_one s o))) (p_pc s)). split; [reflexivity|].
    rewrite Ev, Ev'. destruct (UE k part w (o_u o) (o_v o) Hk Epart) as [_ X].
    destruct (X a f (p_pc s) NDv NV) as [X1 X2].
    + intros blk. rewrite B6, Ev, !counts_app. f_equal. unfold counts. cbn [filter]. rewrite Epart.
      destruct (part (o_v o) =? blk); reflexivity.
    + split; [exact X1|exact X2].
Qed.

Lemma steps_gain s s' todo' r' : Binv [] [] lead s RIdle -> bsteps rank b par part (s, os, RIdle) (s', todo', r') ->
  exists Lg, p_log s' = p_log s ++ Lg /\
  (forall y, dpen (flat_map (up_adds U k part w) Lg) y
     = (cpen pt part w (valid (p_edge s')) y - cpen pt part w (valid (p_edge s)) y)%Z) /\
  (forall y c, c < k -> dben (flat_map (up_adds U k part w) Lg) y c
     = (cben bt part w (valid (p_edge s')) y c - cben bt part w (valid (p_edge s)) y c)%Z).
Proof.
  intros B S. remember (s, os, RIdle) as X eqn:EX. remember (s', todo', r') as Y eqn:EY.
  revert s' todo' r' EY. induction S as [x|x y z S1 IH S2]; intros s' todo' r' EY; subst.
  - injection EY as <- <- <-. exists []. rewrite app_nil_r. cbn [flat_map]. split; [reflexivity|]. split; intros; rewrite ?dpen_nil, ?dben_nil; lia.
  - destruct y as [[s1 todo1] r1]. destruct (IH eq_refl s1 todo1 r1 eq_refl) as (Lg & EL & D1 & D2).
    destruct (steps_inv rank b par part V0 lead rest log0 Hlead Hrest Hpp os Hos Hnd s s1 todo1 r1 B S1) as (ds & rd & rr & B1 & P1).
    destruct (step_gain ds rd rr s1 todo1 r1 s' todo' r' B1 P1 S2) as [->|(x & Ex & K1 & K2)].
    + exists Lg. auto.
    + exists (Lg ++ [x]). rewrite Ex, EL, app_assoc. split; [reflexivity|]. rewrite flat_map_app. cbn [flat_map].
      rewrite app_nil_r. split.
      * intros y. rewrite dpen_app, D1, K1. lia.
      * intros y c Hc. rewrite dben_app, D2, K2 by exact Hc. lia.
Qed.
End Batch.

Section Run.
Variables (U : upolicy) (pt bt : Z -> Z -> Z).
Hypothesis UE : up_exact U pt bt.
Variables (k : nat) (w : Z).
Variables (P0 : list nat) (ops : list eop) (rank par : nat -> nat) (b0 : nat).
Hypothesis L : legal P0 ops.
Hypothesis O : order_ok P0 ops rank par b0.

Lemma batch_gain b part s os s' : (forall p, part p < k) -> uinv P0 ops rank b0 b part s ->
  Permutation os (filter (fun o => rank (o_v o) =? b) ops) ->
  let part' := setparts rank b par part in
  batch_run rank b par part' s os s' ->
  exists Lg, p_log s' = p_log s ++ Lg /\
  (forall y, dpen (flat_map (up_adds U k part' w) Lg) y
     = (cpen pt part' w (valid (p_edge s')) y - cpen pt part w (valid (p_edge s)) y)%Z) /\
  (forall y c, c < k -> dben (flat_map (up_adds U k part' w) Lg) y c
     = (cben bt part' w (valid (p_edge s')) y c - cben bt part w (valid (p_edge s)) y c)%Z).
Proof.
  intros Hkp Ui Pos. cbv zeta. intros BR. set (part' := setparts rank b par part).
  pose proof (ui_b _ _ _ _ _ _ _ Ui) as Hb0.
  assert (Hk' : forall p, part' p < k) by (intros p; unfold part', setparts; destruct (rank p =? b); apply Hkp).
  assert (Hos : forall o, In o os <-> In o ops /\ rank (o_v o) = b).
  { intros o. rewrite <- Nat.eqb_eq, <- (filter_In (fun o => rank (o_v o) =? b)). split; apply Permutation_in; [exact Pos|symmetry; exact Pos]. }
  destruct (sorted_lead rank b _ (ui_sorted _ _ _ _ _ _ _ Ui)) as (lead & rest & Ei & Hlead & Hrest).
  { intros x Hx. apply (ui_inv _ _ _ _ _ _ _ Ui) in Hx. destruct Hx as (o & _ & _ & _ & H). exact H. }
  set (V0 := valid (p_edge s)) in *.
  assert (Hlead2 : forall x, In x lead -> exists o, In o os /\ o_v o = x /\ o_sh o = true).
  { intros x Hx. assert (X : In x (invalid (p_edge s))) by (rewrite Ei; apply in_or_app; auto).
    apply (ui_inv _ _ _ _ _ _ _ Ui) in X. destruct X as (o & Ho & Ev & Es & _). exists o. rewrite Hos, Ev. auto. }
  assert (Hpar : forall x, In x lead -> exists o, In o os /\ o_v o = x /\ par x = o_u o).
  { intros x Hx. apply Hlead2 in Hx. destruct Hx as (o & Ho & Ev & Es). exists o. rewrite <- Ev.
    rewrite (o_par _ _ _ _ _ O o) by (apply Hos; exact Ho). auto. }
  assert (Hrep : forall o, In o os -> In (o_u o) V0).
  { intros o Ho. apply Hos in Ho. destruct Ho as [Ho Er]. apply (ui_valid _ _ _ _ _ _ _ Ui). exact (rep_valid _ _ _ _ _ L O b o Ho Er). }
  assert (Hpp : forall x, In x lead -> part' (par x) = part' x).
  { intros x Hx. destruct (Hpar x Hx) as (o & Ho & Ev & ->). rewrite <- Ev. apply Hos in Ho. destruct Ho as [Ho Er].
    symmetry. exact (setparts_op _ _ _ _ _ L O b part o Hb0 Ho Er). }
  assert (Hr : match rest with [] => True | y :: _ => rank y <> b end).
  { destruct rest as [|y r]; [exact I|]. specialize (Hrest y (or_introl eq_refl)). lia. }
  assert (Esame : forall x, In x V0 -> part' x = part x).
  { intros x Hx. apply (setparts_valid _ _ _ _ _ O); [exact Hb0|]. apply (ui_valid _ _ _ _ _ _ _ Ui). exact Hx. }
  assert (B0 : binv par part' V0 lead rest (p_log s) [] [] lead s RIdle).
  { constructor; cbn.
    - reflexivity.
    - exact (ui_size _ _ _ _ _ _ _ Ui).
    - auto.
    - rewrite app_nil_r. apply Permutation_refl.
    - exact Ei.
    - intros blk. rewrite (ui_pc _ _ _ _ _ _ _ Ui). apply counts_ext. intros x Hx. symmetry. apply Esame. exact Hx.
    - exists []. rewrite app_nil_r. auto. }
  assert (NDv : NoDup (map o_v os)).
  { eapply Permutation_NoDup; [apply Permutation_map; symmetry; exact Pos|].
    pose proof (legal_nd _ _ L) as ND. clear - ND. induction ops as [|o l IH]; [constructor|]. cbn in *.
    apply NoDup_cons_iff in ND. destruct ND as [N ND]. destruct (rank (o_v o) =? b); [|auto]. cbn. constructor; [|auto].
    intros X. apply N. apply in_map_iff in X. destruct X as (o' & E & Ho'). apply filter_In in Ho'. rewrite <- E. apply in_map. apply Ho'. }
  assert (NDos : NoDup os) by exact (NoDup_map_inv _ _ NDv).
  assert (NDu : NoDup (map o_u (nonsh os))).
  { assert (H : forall l, NoDup l -> (forall o, In o l -> In o ops /\ o_sh o = false) -> NoDup (map o_u l)).
    { induction l as [|o l IH]; intros ND H; [constructor|]. apply NoDup_cons_iff in ND. destruct ND as [N ND]. cbn. constructor.
      - intros X. apply in_map_iff in X. destruct X as (o' & E & Ho').
        assert (o = o'); [|subst; contradiction].
        apply (legal_nsh_uniq P0 ops); auto; apply H; cbn; auto.
      - apply IH; [exact ND|]. intros o' Ho'. apply H. right. exact Ho'. }
    apply H; [apply NoDup_filter; exact NDos|]. intros o Ho. apply nonsh_in in Ho. destruct Ho as [Ho Es].
    apply Hos in Ho. split; [apply Ho|exact Es]. }
  assert (Htask : forall o, In o os -> o_sh o = false -> In (o_u o) V0 /\ part' (o_u o) = part' (o_v o)).
  { intros o Ho _. split; [exact (Hrep o Ho)|]. apply Hos in Ho. destruct Ho as [Ho Er].
    symmetry. exact (setparts_op _ _ _ _ _ L O b part o Hb0 Ho Er). }
  assert (NDV : NoDup (V0 ++ lead ++ rest)) by (rewrite <- Ei; exact (ui_nd _ _ _ _ _ _ _ Ui)).
  assert (NDall : NoDup ((map o_v (nonsh os) ++ V0 ++ lead) ++ rest)).
  { rewrite <- app_assoc, <- (app_assoc V0). apply NoDup_app_i; [|exact NDV|].
    - assert (X : forall l, NoDup (map o_v l) -> NoDup (map o_v (nonsh l))).
      { induction l as [|o l IH]; intros ND; [constructor|]. cbn in *. apply NoDup_cons_iff in ND. destruct ND as [N ND].
        unfold nonsh. cbn. fold (nonsh l). destruct (negb (o_sh o)); [|auto]. cbn. constructor; [|auto].
        intros X. apply N. apply in_map_iff in X. destruct X as (o' & E & Ho'). apply filter_In in Ho'. rewrite <- E. apply in_map. apply Ho'. }
      exact (X os NDv).
    - intros x Hx Hx2. apply in_map_iff in Hx. destruct Hx as (o & Ev & Ho). apply nonsh_in in Ho. destruct Ho as [Ho Es].
      apply Hos in Ho. destruct Ho as [Ho Er].
      apply in_app_or in Hx2. destruct Hx2 as [Hx2|Hx2].
      + apply (ui_valid _ _ _ _ _ _ _ Ui) in Hx2. destruct Hx2 as [_ N]. apply N. exists o. rewrite <- Ev. repeat split; auto. lia.
      + rewrite <- Ei in Hx2. apply (ui_inv _ _ _ _ _ _ _ Ui) in Hx2. destruct Hx2 as (o' & Ho' & Ev' & Es' & _).
        assert (o = o') by (apply (legal_v_inj P0 ops); auto; congruence). congruence. }
  destruct BR as (r & BR & Hr2).
  destruct (steps_gain U pt bt UE k w rank b par part' V0 lead rest (p_log s) os Hk' Hlead Hr Hpp Htask NDu NDall) with (s := s) (s' := s') (todo' := @nil eop) (r' := r)
    as (Lg & EL & D1 & D2); [| |exact B0|exact BR|].
  - intros x Hx. destruct (Hpar x Hx) as (o & Ho & _ & ->). exact (Hrep o Ho).
  - intros o o' Ho Ho' E. apply Hos in Ho. apply Hos in Ho'. destruct Ho as [Ho Er], Ho' as [Ho' Er'].
    pose proof (o_parent _ _ _ _ _ O o o' Ho Ho' E). lia.
  - exists Lg. split; [exact EL|]. fold V0 in D1, D2.
    assert (Em : forall y, memb y V0 = true -> part' y = part y) by (intros y Hy; apply Esame; apply memb_in; exact Hy).
    assert (Ec : forall blk, counts part' V0 blk = counts part V0 blk) by (intros blk; apply counts_ext; exact Esame).
    split.
    + intros y. rewrite D1. f_equal. unfold cpen. destruct (memb y V0) eqn:E; [|reflexivity]. rewrite Ec, (Em y E). reflexivity.
    + intros y c Hc. rewrite D2 by exact Hc. f_equal. unfold cben. rewrite Ec. reflexivity.
Qed.
End Run.
