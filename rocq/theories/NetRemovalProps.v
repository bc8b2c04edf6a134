(** C83: removing and restoring single-pin and identical nets. *)
From Coq Require Import List Arith ZArith Lia Bool Permutation Sorted.
From Verif Require Import Base INARep INAOps2 GainCache GainCacheProofs DynEdge DynEdgeSpec DynEdgeThms DynEdgeBatch DynEdgeRun DynEdgeProps
  DynGain DynGainSpec DynGainThms DynGainRun NetRemoval NetRemovalSpec NetRemovalThms.
Import ListNotations.
Local Open Scope nat_scope.

Lemma gather rms (F W : nat -> Z) (A : list nat) : NoDup A -> (forall x : nat * nat, In x rms -> In (snd x) A) ->
  sumZ (fun h => Z.mul (sumZ (fun x => if snd x =? h then W (fst x) else 0%Z) rms) (F h)) A
  = sumZ (fun x : nat * nat => Z.mul (W (fst x)) (F (snd x))) rms.
Proof.
  intros ND. induction rms as [|[r h] rms IH]; intros H.
  - cbn. apply sumZ_zero. intros; lia.
  - cbn [sumZ fst snd]. rewrite <- IH by (intros x Hx; apply H; right; exact Hx).
    rewrite (sumZ_ext _ (fun g => Z.add (if g =? h then Z.mul (W r) (F g) else 0%Z) (Z.mul (sumZ (fun x => if snd x =? g then W (fst x) else 0%Z) rms) (F g)))).
    + rewrite sumZ_plus. f_equal. rewrite (sum_ind (fun g => Z.mul (W r) (F g)) A h ND).
      destruct (memb_dec h A) as [I|N]; [reflexivity|]. exfalso. apply N. apply (H (r, h)). left. reflexivity.
    + intros g _. rewrite (Nat.eqb_sym h g). destruct (g =? h); lia.
Qed.

Definition preds (L : list (nat * option nat)) : list (nat * nat) :=
  flat_map (fun x => match snd x with Some rep => [(fst x, rep)] | None => [] end) L.
Definition singles (L : list (nat * option nat)) : list nat :=
  flat_map (fun x => match snd x with Some _ => [] | None => [fst x] end) L.
Lemma preds_in r h L : In (r, h) (preds L) <-> In (r, Some h) L.
Proof.
  unfold preds. rewrite in_flat_map. split.
  - intros ([a [b|]] & H & X); cbn in X; [|contradiction]. destruct X as [X|[]]. injection X as <- <-. exact H.
  - intros H. exists (r, Some h). split; [exact H|left; reflexivity].
Qed.
Lemma singles_in h L : In h (singles L) <-> In (h, None) L.
Proof.
  unfold singles. rewrite in_flat_map. split.
  - intros ([a [b|]] & H & X); cbn in X; [contradiction|]. destruct X as [X|[]]. subst. exact H.
  - intros H. exists (h, None). split; [exact H|left; reflexivity].
Qed.
Lemma split_perm L : Permutation (map fst L) (singles L ++ map fst (preds L)).
Proof.
  induction L as [|[a [b|]] L IH]; cbn; [constructor| |].
  - rewrite <- Permutation_middle. constructor. exact IH.
  - constructor. exact IH.
Qed.

(** restored weights, in any order *)
Lemma restore_w L : forall W, (forall h rep, In (h, Some rep) L -> ~ In rep (map fst L)) ->
  forall g, fold_left restore_weight L W g = Z.sub (W g) (sumZ (fun x => if snd x =? g then W (fst x) else 0%Z) (preds L)).
Proof.
  induction L as [|[a o] L IH] using rev_ind; intros W H g; [cbn; lia|].
  rewrite fold_left_app. cbn [fold_left]. unfold restore_weight at 1. cbn [fst snd].
  assert (H' : forall h rep, In (h, Some rep) L -> ~ In rep (map fst L)).
  { intros h rep Hi X. apply (H h rep); [apply in_or_app; left; exact Hi|]. rewrite map_app. apply in_or_app. left. exact X. }
  unfold preds. rewrite flat_map_app. fold (preds L). rewrite sumZ_app. cbn [flat_map fst snd].
  destruct o as [rep|]; cbn [sumZ fst snd app].
  - assert (Hr : ~ In rep (map fst (L ++ [(a, Some rep)]))) by (apply (H a); apply in_or_app; right; left; reflexivity).
    assert (Wa : fold_left restore_weight L W a = W a).
    { rewrite (IH W H' a). rewrite sumZ_zero; [lia|]. intros [r h] Hx. cbn. destruct (Nat.eqb_spec h a) as [->|N]; [|reflexivity].
      exfalso. apply preds_in in Hx. apply (H r a); [apply in_or_app; left; exact Hx|]. rewrite map_app. apply in_or_app. right. left. reflexivity. }
    unfold upd. rewrite Wa. destruct (Nat.eqb_spec g rep) as [->|N].
    + rewrite (IH W H' rep), Nat.eqb_refl. lia.
    + rewrite (IH W H' g). destruct (Nat.eqb_spec rep g); [congruence|]. lia.
  - rewrite (IH W H' g). lia.
Qed.

Lemma restorable_perm pins en L L' : Permutation L' L -> restorable pins en L -> restorable pins en L'.
Proof.
  intros P [R1 R2 R3]. constructor.
  - eapply Permutation_NoDup; [|exact R1]. apply Permutation_app_head. apply Permutation_map. symmetry. exact P.
  - intros h H. apply R2. exact (Permutation_in _ P H).
  - intros h rep H. apply R3. exact (Permutation_in _ P H).
Qed.
Lemma restorable_rep pins en L : restorable pins en L -> forall h rep, In (h, Some rep) L -> ~ In rep (map fst L).
Proof. intros [R1 R2 R3] h rep H X. destruct (R3 h rep H) as (A & _). exact (NoDup_app_disj _ _ R1 rep A X). Qed.

(** sums over the hyperedges before and after a restore *)
Lemma restore_sum pins en L W F : restorable pins en L ->
  (forall h rep, In (h, Some rep) L -> F h = F rep) ->
  sumZ (fun e => Z.mul (fold_left restore_weight L W e) (F e)) (en ++ map fst L)
  = Z.add (sumZ (fun e => Z.mul (W e) (F e)) en) (sumZ (fun e => Z.mul (W e) (F e)) (singles L)).
Proof.
  intros R HF. pose proof (restorable_rep _ _ _ R) as Hr. destruct R as [R1 R2 R3].
  assert (Ex : forall e, Z.mul (fold_left restore_weight L W e) (F e)
      = Z.sub (Z.mul (W e) (F e)) (Z.mul (sumZ (fun x => if snd x =? e then W (fst x) else 0%Z) (preds L)) (F e))).
  { intros e. rewrite (restore_w L W Hr e). lia. }
  rewrite sumZ_app.
  rewrite (sumZ_ext _ _ en (fun e _ => Ex e)), sumZ_minus.
  rewrite gather; [|exact (NoDup_app_remove_r _ _ R1)|].
  2:{ intros [r h] Hx. apply preds_in in Hx. cbn. apply (R3 r h Hx). }
  rewrite (sumZ_ext _ (fun e => Z.mul (W e) (F e)) (map fst L)).
  2:{ intros e He. rewrite Ex. rewrite (sumZ_zero (fun x => if snd x =? e then W (fst x) else 0%Z)); [lia|].
      intros [r h] Hx. cbn. destruct (Nat.eqb_spec h e) as [->|N]; [|reflexivity]. exfalso. apply preds_in in Hx. exact (Hr _ _ Hx He). }
  rewrite (sumZ_perm _ _ _ (split_perm L)), sumZ_app, sumZ_map. cbn [fst].
  rewrite (sumZ_ext (fun x => Z.mul (W (fst x)) (F (fst x))) (fun x => Z.mul (W (fst x)) (F (snd x))) (preds L)); [lia|].
  intros [r h] Hx. cbn. apply preds_in in Hx. rewrite (HF r h Hx). reflexivity.
Qed.

(** ** Removing *)
Section Remove.
Variables (pins : nat -> list nat) (hash : nat -> Z) (bucket : Z -> nat) (nb : nat).
Variables (en : list nat) (W : nat -> Z) (en' : list nat) (W' : nat -> Z) (L : list (nat * option nat)).
Hypothesis Hb : forall z, bucket z < nb.
Hypothesis ND : NoDup en.
Hypothesis RM : remove_nets pins hash bucket nb en W en' W' L.

Lemma removed_in x o : In (x, o) L -> In x en.
Proof.
  destruct (remove_rsp _ _ _ _ _ _ _ _ _ Hb ND RM) as (rms & [R1 R2 R3 R4] & PL & _). intros H.
  apply (Permutation_in _ PL) in H. apply in_app_or in H. destruct H as [H|H].
  - apply in_map_iff in H. destruct H as (h & E & H). injection E as <- <-. apply filter_In in H. apply H.
  - apply in_map_iff in H. destruct H as ([r h] & E & H). injection E as <- <-. destruct (R2 _ _ H) as (A & _). apply filter_In in A. apply A.
Qed.

(** the enabled hyperedges are the kept and the removed ones *)
Lemma remove_split : Permutation en (en' ++ map fst L) /\ NoDup (map fst L).
Proof.
  destruct (remove_rsp _ _ _ _ _ _ _ _ _ Hb ND RM) as (rms & [R1 R2 R3 R4] & PL & Een).
  assert (NDL : NoDup (map fst L)).
  { eapply Permutation_NoDup; [apply Permutation_map; symmetry; exact PL|]. rewrite map_app, !map_map. cbn [fst].
    rewrite map_id. apply NoDup_app_i; [apply NoDup_filter; exact ND|exact R1|].
    intros x H1 H2. apply filter_In in H1. apply in_map_iff in H2. destruct H2 as ([r h] & E & H2). cbn in E. subst r.
    destruct (R2 _ _ H2) as (A & _). apply filter_In in A. destruct H1 as [_ H1], A as [_ A]. rewrite A in H1. discriminate. }
  split; [|exact NDL].
  assert (Hx : forall h, existsb (fun x : nat * option nat => fst x =? h) L = true <-> In h (map fst L)).
  { intros h. rewrite existsb_exists, in_map_iff. split.
    - intros (x & Hx & E). apply Nat.eqb_eq in E. exists x. auto.
    - intros (x & E & Hx). exists x. split; [exact Hx|]. apply Nat.eqb_eq. exact E. }
  apply NoDup_Permutation; [exact ND| |].
  - apply NoDup_app_i; [rewrite Een; apply NoDup_filter; exact ND|exact NDL|].
    intros x H1 H2. rewrite Een in H1. apply filter_In in H1. destruct H1 as [_ H1]. apply Hx in H2. rewrite H2 in H1. discriminate.
  - intros x. rewrite in_app_iff, Een, filter_In. split.
    + intros H. destruct (existsb (fun y => fst y =? x) L) eqn:E; [right; apply Hx; exact E|left; auto].
    + intros [[H _]|H]; [exact H|]. apply in_map_iff in H. destruct H as ([a o] & <- & H). exact (removed_in _ _ H).
Qed.

(** The removed hyperedges are the single-pin ones and copies of kept ones. *)
Theorem C83_restorable : (forall e, In e en -> pins e <> []) -> restorable pins en' L.
Proof.
  intros Hne. destruct remove_split as [P NDL].
  destruct (remove_rsp _ _ _ _ _ _ _ _ _ Hb ND RM) as (rms & [R1 R2 R3 R4] & PL & Een).
  constructor.
  - eapply Permutation_NoDup; [exact P|exact ND].
  - intros h H. pose proof (removed_in _ _ H) as He. apply (Permutation_in _ PL) in H. apply in_app_or in H. destruct H as [H|H].
    + apply in_map_iff in H. destruct H as (h' & E & H). injection E as <-. apply filter_In in H. destruct H as [_ H].
      specialize (Hne h' He). destruct (pins h') as [|p [|q l]]; [contradiction|reflexivity|discriminate].
    + apply in_map_iff in H. destruct H as (x & E & _). discriminate.
  - intros h rep H. apply (Permutation_in _ PL) in H. apply in_app_or in H. destruct H as [H|H].
    + apply in_map_iff in H. destruct H as (x & E & _). discriminate.
    + apply in_map_iff in H. destruct H as ([r g] & E & H). injection E as <- <-. destruct (R2 _ _ H) as (A & B & C & D).
      apply filter_In in A. apply filter_In in B. split; [|split].
      * assert (X : In g (en' ++ map fst L)) by (apply (Permutation_in _ P); apply B). apply in_app_or in X. destruct X as [X|X]; [exact X|exfalso].
        apply in_map_iff in X. destruct X as ([a o] & Ea & X). cbn in Ea. subst a. apply (Permutation_in _ PL) in X. apply in_app_or in X.
        destruct X as [X|X].
        -- apply in_map_iff in X. destruct X as (y & Ey & X). injection Ey as -> <-. apply filter_In in X. destruct X as [_ X], B as [_ B]. rewrite B in X. discriminate.
        -- apply in_map_iff in X. destruct X as (y & Ey & X). injection Ey as Ey _. apply C. rewrite <- Ey. apply in_map. exact X.
      * cbn. rewrite D. apply Permutation_refl.
      * apply Nat.ltb_lt. apply A.
Qed.

(** Afterwards no single-pin hyperedge is left, and no two hyperedges with the
    same pins (which have the same footprint, C81). *)
Theorem C83_complete : (forall h1 h2, In h1 en -> In h2 en -> pins h1 = pins h2 -> hash h1 = hash h2) ->
  (forall h, In h en' -> 1 < length (pins h)) /\
  (forall h1 h2, In h1 en' -> In h2 en' -> pins h1 = pins h2 -> h1 = h2).
Proof.
  intros Hh. destruct remove_split as [P NDL].
  destruct (remove_rsp _ _ _ _ _ _ _ _ _ Hb ND RM) as (rms & [R1 R2 R3 R4] & PL & Een).
  assert (Q : forall h, In h en' -> In h en /\ ~ In h (map fst L)).
  { intros h H. split; [apply (Permutation_in _ (Permutation_sym P)); apply in_or_app; left; exact H|].
    intros X. assert (N : NoDup (en' ++ map fst L)) by (eapply Permutation_NoDup; [exact P|exact ND]). exact (NoDup_app_disj _ _ N h H X). }
  assert (Q2 : forall h, In h en' -> 1 < length (pins h) /\ ~ In h (map fst rms)).
  { intros h H. destruct (Q h H) as [H1 H2].
    assert (N : forall x, ~ In (h, x) (map (fun h => (h, None)) (filter (fun h => negb (1 <? length (pins h))) en) ++ map (fun rh => (fst rh, Some (snd rh))) rms)).
    { intros x X. apply H2. apply in_map_iff. exists (h, x). split; [reflexivity|]. apply (Permutation_in _ (Permutation_sym PL)). exact X. }
    split.
    - destruct (Nat.ltb_spec 1 (length (pins h))) as [X|X]; [exact X|exfalso]. apply (N None). apply in_or_app. left. apply in_map_iff.
      exists h. split; [reflexivity|]. apply filter_In. split; [exact H1|]. apply Bool.negb_true_iff. apply Nat.ltb_ge. exact X.
    - intros X. apply in_map_iff in X. destruct X as ([r g] & E & X). cbn in E. subst r. apply (N (Some g)). apply in_or_app. right.
      apply in_map_iff. exists (h, g). auto. }
  split; [intros h H; apply (Q2 h H)|]. intros h1 h2 H1 H2 E. destruct (Q2 h1 H1) as [A1 A2], (Q2 h2 H2) as [B1 B2].
  destruct (Q h1 H1) as [C1 _], (Q h2 H2) as [C2 _].
  apply R4; auto; apply filter_In; split; auto; apply Nat.ltb_lt; assumption.
Qed.

(** Restoring the removed hyperedges - in any order - gives back the original
    hyperedges and weights. *)
Theorem C83_inverse : forall en2 W2 en3 W3, Permutation en2 en' -> (forall e, W2 e = W' e) ->
  restore_nets en2 W2 L en3 W3 -> Permutation en3 en /\ forall e, W3 e = W e.
Proof.
  intros en2 W2 en3 W3 P2 E2 [L' PL']. destruct remove_split as [P NDL].
  destruct (remove_rsp _ _ _ _ _ _ _ _ _ Hb ND RM) as (rms & [R1 R2 R3 R4] & PL & Een). split.
  - rewrite P2, (Permutation_map fst PL'). symmetry. exact P.
  - assert (PLL : Permutation L' (map (fun h => (h, None)) (filter (fun h => negb (1 <? length (pins h))) en) ++ map (fun rh => (fst rh, Some (snd rh))) rms)).
    { rewrite PL'. exact PL. }
    assert (Pp : Permutation (preds L') rms).
    { unfold preds. rewrite (Permutation_flat_map _ PLL). rewrite flat_map_app.
      assert (E1 : forall l : list nat, flat_map (fun x : nat * option nat => match snd x with Some rep => [(fst x, rep)] | None => [] end) (map (fun h => (h, None)) l) = []).
      { induction l as [|a l IH]; [reflexivity|exact IH]. }
      assert (E3 : forall l : list (nat * nat), flat_map (fun x : nat * option nat => match snd x with Some rep => [(fst x, rep)] | None => [] end) (map (fun rh => (fst rh, Some (snd rh))) l) = l).
      { induction l as [|[a b] l IH]; [reflexivity|]. cbn. rewrite IH. reflexivity. }
      rewrite E1, E3. reflexivity. }
    assert (Hrep : forall h rep, In (h, Some rep) L' -> ~ In rep (map fst L')).
    { intros h rep H X. assert (Hr : In (h, rep) rms) by (apply (Permutation_in _ Pp); apply preds_in; exact H).
      destruct (R2 _ _ Hr) as (_ & B & C & _). apply in_map_iff in X. destruct X as ([a o] & Ea & X). cbn in Ea. subst a.
      apply (Permutation_in _ PLL) in X. apply in_app_or in X. destruct X as [X|X].
      - apply in_map_iff in X. destruct X as (y & Ey & X). injection Ey as -> <-. apply filter_In in X. apply filter_In in B. destruct X as [_ X], B as [_ B]. rewrite B in X. discriminate.
      - apply in_map_iff in X. destruct X as (y & Ey & X). injection Ey as Ey _. apply C. rewrite <- Ey. apply in_map. exact X. }
    intros g. rewrite (restore_w L' W2 Hrep g), E2, (R3 g), (sumZ_perm _ _ _ Pp).
    assert (S : sumZ (fun x => if snd x =? g then W2 (fst x) else 0%Z) rms = sumZ (fun x => if snd x =? g then W (fst x) else 0%Z) rms).
    { apply sumZ_ext. intros [r h] Hr. cbn. destruct (h =? g); [|reflexivity]. rewrite E2, (R3 r).
      rewrite sumZ_zero; [lia|]. intros [r' h'] Hr'. cbn. destruct (Nat.eqb_spec h' r) as [->|N]; [|reflexivity].
      exfalso. destruct (R2 _ _ Hr') as (_ & _ & C & _). apply C. apply in_map_iff. exists (r, h). auto. }
    rewrite S. lia.
Qed.

Lemma remove_sum F : (forall r h, In (r, Some h) L -> F r = F h) ->
  sumZ (fun e => Z.mul (W e) (F e)) en = Z.add (sumZ (fun e => Z.mul (W' e) (F e)) en') (sumZ (fun e => Z.mul (W e) (F e)) (singles L)).
Proof.
  intros HF. destruct remove_split as [P NDL].
  destruct (remove_rsp _ _ _ _ _ _ _ _ _ Hb ND RM) as (rms & [R1 R2 R3 R4] & PL & Een).
  assert (Nd' : NoDup (en' ++ map fst L)) by (eapply Permutation_NoDup; [exact P|exact ND]).
  assert (Pp : Permutation (preds L) rms).
  { unfold preds. rewrite (Permutation_flat_map _ PL). rewrite flat_map_app.
    assert (E1 : forall l : list nat, flat_map (fun x : nat * option nat => match snd x with Some rep => [(fst x, rep)] | None => [] end) (map (fun h => (h, None)) l) = []).
    { induction l as [|a l IH]; [reflexivity|exact IH]. }
    assert (E3 : forall l : list (nat * nat), flat_map (fun x : nat * option nat => match snd x with Some rep => [(fst x, rep)] | None => [] end) (map (fun rh => (fst rh, Some (snd rh))) l) = l).
    { induction l as [|[a b] l IH]; [reflexivity|]. cbn. rewrite IH. reflexivity. }
    rewrite E1, E3. reflexivity. }
  assert (Hh : forall x : nat * nat, In x rms -> In (snd x) en').
  { intros [r h] Hx. destruct (R2 _ _ Hx) as (_ & B & C & _). cbn. apply filter_In in B.
    assert (X : In h (en' ++ map fst L)) by (apply (Permutation_in _ P); apply B). apply in_app_or in X. destruct X as [X|X]; [exact X|exfalso].
    apply in_map_iff in X. destruct X as ([a o] & Ea & X). cbn in Ea. subst a. apply (Permutation_in _ PL) in X. apply in_app_or in X. destruct X as [X|X].
    - apply in_map_iff in X. destruct X as (y & Ey & X). injection Ey as -> <-. apply filter_In in X. destruct X as [_ X], B as [_ B]. rewrite B in X. discriminate.
    - apply in_map_iff in X. destruct X as (y & Ey & X). injection Ey as Ey _. apply C. rewrite <- Ey. apply in_map. exact X. }
  rewrite (sumZ_perm _ _ _ P), sumZ_app.
  rewrite (sumZ_ext (fun e => Z.mul (W' e) (F e)) (fun e => Z.add (Z.mul (W e) (F e)) (Z.mul (sumZ (fun x => if snd x =? e then W (fst x) else 0%Z) rms) (F e)))).
  2:{ intros e _. rewrite R3. lia. }
  rewrite sumZ_plus, gather; [|exact (NoDup_app_remove_r _ _ Nd')|exact Hh].
  rewrite (sumZ_perm _ _ _ (split_perm L)), sumZ_app, sumZ_map.
  rewrite <- (sumZ_perm _ _ _ Pp).
  rewrite (sumZ_ext (fun x => Z.mul (W (fst x)) (F (fst x))) (fun x => Z.mul (W (fst x)) (F (snd x))) (preds L)).
  2:{ intros [r h] Hx. cbn. apply preds_in in Hx. rewrite (HF r h Hx). reflexivity. }
  lia.
Qed.

(** Removing single-pin and identical nets changes no objective value of any
    partition. *)
Theorem C83_objective : (forall e, In e en -> pins e <> []) -> forall part f, f 1 = 0%Z ->
  objective f pins part en' W' = objective f pins part en W.
Proof.
  intros Hne part f Hf. pose proof (C83_restorable Hne) as [T1 T2 T3]. unfold objective. symmetry. rewrite (remove_sum (fun e => f (lambda part (pins e)))).
  - rewrite (sumZ_zero _ (singles L)); [lia|]. intros e He. apply singles_in in He. specialize (T2 e He).
    destruct (pins e) as [|p [|q l]]; try discriminate. unfold lambda. cbn [map nodup length in_dec]. cbn. rewrite Hf. lia.
  - intros r h H.
    destruct (remove_rsp _ _ _ _ _ _ _ _ _ Hb ND RM) as (rms & [R1 R2 R3 R4] & PL & Een).
    apply (Permutation_in _ PL) in H. apply in_app_or in H. destruct H as [H|H].
    + apply in_map_iff in H. destruct H as (x & E & _). discriminate.
    + apply in_map_iff in H. destruct H as ([r' g] & E & H). injection E as <- <-. destruct (R2 _ _ H) as (_ & _ & _ & D). cbn. rewrite D. reflexivity.
Qed.
End Remove.

(** The objective functions of this program satisfy the premise. *)
Lemma C83_three_objectives : f_km1 1 = 0%Z /\ f_cut 1 = 0%Z /\ f_soed 1 = 0%Z.
Proof. repeat split. Qed.

(** Any nesting of rounds ends with the original hyperedges and weights. *)
Theorem C83_history bucket nb en W en' W' : (forall z, bucket z < nb) -> NoDup en -> nested bucket nb en W en' W' ->
  Permutation en' en /\ forall e, W' e = W e.
Proof.
  intros Hb ND N. revert ND. induction N as [en W|pins hash en W en1 W1 L en2 W2 en3 W3 RM N IH RS|en1 W1 en2 W2 en3 W3 N1 IH1 N2 IH2]; intros ND.
  - auto.
  - destruct (remove_split _ _ _ _ _ _ _ _ _ Hb ND RM) as [P _].
    assert (ND1 : NoDup en1) by (apply (NoDup_app_remove_r _ (map fst L)); eapply Permutation_NoDup; [exact P|exact ND]).
    destruct (IH ND1) as [I1 I2]. exact (C83_inverse _ _ _ _ _ _ _ _ _ Hb ND RM en2 W2 en3 W3 I1 I2 RS).
  - destruct (IH1 ND) as [I1 I2]. assert (ND2 : NoDup en2) by (eapply Permutation_NoDup; [symmetry; exact I1|exact ND]).
    destruct (IH2 ND2) as [J1 J2]. split; [rewrite J1; exact I1|]. intros e. rewrite J2. apply I2.
Qed.

(** ** Restoring, with a partition *)
Lemma lambda_perm part l l' : Permutation l l' -> lambda part l = lambda part l'.
Proof.
  intros P. unfold lambda. apply Permutation_length. apply NoDup_Permutation; [apply NoDup_nodup|apply NoDup_nodup|].
  intros x. rewrite !nodup_In. split; apply Permutation_in; apply Permutation_map; [exact P|symmetry; exact P].
Qed.
Theorem C83_restore_objective pins en L W en' W' part f : restorable pins en L -> restore_nets en W L en' W' -> f 1 = 0%Z ->
  objective f pins part en' W' = objective f pins part en W.
Proof.
  intros R [L' P] Hf. pose proof (restorable_perm _ _ _ _ P R) as R'. unfold objective.
  rewrite (restore_sum pins en L' W (fun e => f (lambda part (pins e))) R').
  - rewrite (sumZ_zero _ (singles L')); [lia|]. intros e He. apply singles_in in He. pose proof (rt_single _ _ _ R' e He) as Q.
    destruct (pins e) as [|p [|q l]]; try discriminate. cbn. rewrite Hf. lia.
  - intros h rep H. destruct (rt_par _ _ _ R' h rep H) as (_ & Q & _). rewrite (lambda_perm part _ _ Q). reflexivity.
Qed.

Definition single_exact (single : (nat -> nat) -> Z -> nat -> list add) (pt bt : Z -> Z -> Z) : Prop := forall part w u,
  (forall x, dpen (single part w u) x = cpen pt part w [u] x) /\ (forall x b, dben (single part w u) x b = cben bt part w [u] x b).
Lemma counts_one part u b : counts part [u] b = if part u =? b then 1 else 0.
Proof. unfold counts. cbn. destruct (part u =? b); reflexivity. Qed.
Lemma km1_single_exact : single_exact km1_single km1_pt km1_bt.
Proof.
  intros part w u. unfold km1_single, cpen, cben, km1_pt, km1_bt. split.
  - intros x. rewrite dpen_cons, dpen_nil. cbn [dpen1]. rewrite counts_one. unfold memb. cbn [existsb]. destruct (x =? u), (part u =? part x); cbn; lia.
  - intros x b. rewrite dben_cons, dben_nil. cbn [dben1]. rewrite counts_one. unfold memb. cbn [existsb]. rewrite (Nat.eqb_sym x u).
    destruct (u =? x), (part u =? b); cbn; lia.
Qed.
Lemma cut_single_exact : single_exact no_single cut_pt cut_bt.
Proof.
  intros part w u. unfold no_single, cpen, cben, cut_pt, cut_bt. cbn [length]. split.
  - intros x. rewrite dpen_nil. destruct (memb x [u]); cbn; lia.
  - intros x b. rewrite dben_nil. destruct (memb x [u]); cbn; lia.
Qed.
Lemma soed_single_exact : single_exact no_single soed_pt soed_bt.
Proof.
  intros part w u. unfold no_single, cpen, cben, soed_pt, soed_bt. cbn [length]. split.
  - intros x. rewrite dpen_nil. destruct (memb x [u]); cbn; lia.
  - intros x b. rewrite dben_nil. destruct (memb x [u]); cbn; lia.
Qed.

Lemma memb_perm x l l' : Permutation l l' -> memb x l = memb x l'.
Proof. intros P. destruct (memb_dec x l) as [I|N], (memb_dec x l') as [I'|N']; auto; exfalso; [apply N'; exact (Permutation_in _ P I)|apply N; exact (Permutation_in _ (Permutation_sym P) I')]. Qed.
Lemma restore_cache single pt bt k pins part en L W en' W' c adds : single_exact single pt bt ->
  restorable pins en L -> restore_nets en W L en' W' ->
  Permutation adds (flat_map (restored_adds single part W' pins) L) ->
  cache_exact pt bt k part (map (fun e => (W e, pins e)) en) c ->
  cache_exact pt bt k part (map (fun e => (W' e, pins e)) en') (fold_left do_add adds c).
Proof.
  intros SE R [L' P] PA [C1 C2]. pose proof (restorable_perm _ _ _ _ P R) as R'.
  pose proof (restorable_rep _ _ _ R') as Hr.
  assert (Wsame : forall x o, In (x, o) L' -> fold_left restore_weight L' W x = W x).
  { intros x o Hx. rewrite (restore_w L' W Hr x), sumZ_zero; [lia|]. intros [r h] Hp. cbn.
    destruct (Nat.eqb_spec h x) as [->|N]; [|reflexivity]. exfalso. apply preds_in in Hp. apply (Hr _ _ Hp). apply in_map_iff. exists (x, o). auto. }
  assert (AD : forall (d : list add -> Z) (t : nat -> Z), d [] = 0%Z -> (forall l1 l2, d (l1 ++ l2) = Z.add (d l1) (d l2)) ->
     (forall e, length (pins e) = 1 -> d (flat_map (single part (W e)) (pins e)) = t e) ->
     d (flat_map (restored_adds single part (fold_left restore_weight L' W) pins) L') = sumZ t (singles L')).
  { intros d t D0 DA D1. pose proof (rt_single _ _ _ R') as RS. pose proof (rt_par _ _ _ R') as RP. revert RS RP Wsame.
    generalize (fold_left restore_weight L' W). intros WW. generalize L'. clear - D0 DA D1.
    induction L' as [|[a o] l IH]; intros RS RP Ws; [exact D0|]. cbn [flat_map]. rewrite DA, IH.
    - unfold restored_adds at 1. cbn [fst]. destruct o as [rep|].
      + destruct (RP a rep (or_introl eq_refl)) as (_ & _ & Hl). destruct (Nat.eqb_spec (length (pins a)) 1) as [X|X]; [lia|].
        rewrite D0. unfold singles at 2. cbn. reflexivity.
      + rewrite (RS a (or_introl eq_refl)), Nat.eqb_refl. rewrite (Ws a None (or_introl eq_refl)).
        rewrite (D1 a (RS a (or_introl eq_refl))). unfold singles at 2. cbn [flat_map snd app sumZ fst]. reflexivity.
    - intros h Hh. apply RS. right. exact Hh.
    - intros h rep Hh. apply (RP h rep). right. exact Hh.
    - intros x o' Hx. apply (Ws x o'). right. exact Hx. }
  assert (PA' : Permutation adds (flat_map (restored_adds single part (fold_left restore_weight L' W) pins) L')).
  { rewrite PA. apply Permutation_flat_map. symmetry. exact P. }
  split.
  - intros x. rewrite do_adds_pen, C1. unfold dpen. rewrite (sumZ_perm _ _ _ PA'). fold (dpen (flat_map (restored_adds single part (fold_left restore_weight L' W) pins) L') x).
    rewrite (AD (fun l => dpen l x) (fun e => cpen pt part (W e) (pins e) x)).
    + rewrite !sumZ_map. cbn [fst snd].
      set (F := fun e => if memb x (pins e) then pt (Z.of_nat (length (pins e))) (Z.of_nat (counts part (pins e) (part x))) else 0%Z).
      assert (EF : forall w e, cpen pt part w (pins e) x = Z.mul w (F e)) by (intros w e; unfold cpen, F; destruct (memb x (pins e)); lia).
      rewrite (sumZ_ext _ (fun e => Z.mul (fold_left restore_weight L' W e) (F e)) (en ++ map fst L') (fun e _ => EF _ e)).
      rewrite (sumZ_ext _ (fun e => Z.mul (W e) (F e)) en (fun e _ => EF _ e)).
      rewrite (sumZ_ext _ (fun e => Z.mul (W e) (F e)) (singles L') (fun e _ => EF _ e)).
      rewrite (restore_sum pins en L' W F R'); [reflexivity|].
      intros h rep H. destruct (rt_par _ _ _ R' h rep H) as (_ & Q & _). unfold F.
      rewrite (memb_perm x _ _ Q), (Permutation_length Q), (counts_perm part _ _ (part x) Q). reflexivity.
    + reflexivity.
    + intros l1 l2. apply dpen_app.
    + intros e He. destruct (pins e) as [|p [|q l]] eqn:Ep; try discriminate. cbn [flat_map]. rewrite app_nil_r. apply SE.
  - intros x b Hb. rewrite do_adds_ben, (C2 x b Hb). unfold dben. rewrite (sumZ_perm _ _ _ PA'). fold (dben (flat_map (restored_adds single part (fold_left restore_weight L' W) pins) L') x b).
    rewrite (AD (fun l => dben l x b) (fun e => cben bt part (W e) (pins e) x b)).
    + rewrite !sumZ_map. cbn [fst snd].
      set (F := fun e => if memb x (pins e) then bt (Z.of_nat (length (pins e))) (Z.of_nat (counts part (pins e) b)) else 0%Z).
      assert (EF : forall w e, cben bt part w (pins e) x b = Z.mul w (F e)) by (intros w e; unfold cben, F; destruct (memb x (pins e)); lia).
      rewrite (sumZ_ext _ (fun e => Z.mul (fold_left restore_weight L' W e) (F e)) (en ++ map fst L') (fun e _ => EF _ e)).
      rewrite (sumZ_ext _ (fun e => Z.mul (W e) (F e)) en (fun e _ => EF _ e)).
      rewrite (sumZ_ext _ (fun e => Z.mul (W e) (F e)) (singles L') (fun e _ => EF _ e)).
      rewrite (restore_sum pins en L' W F R'); [reflexivity|].
      intros h rep H. destruct (rt_par _ _ _ R' h rep H) as (_ & Q & _). unfold F.
      rewrite (memb_perm x _ _ Q), (Permutation_length Q), (counts_perm part _ _ b Q). reflexivity.
    + reflexivity.
    + intros l1 l2. apply dben_app.
    + intros e He. destruct (pins e) as [|p [|q l]] eqn:Ep; try discriminate. cbn [flat_map]. rewrite app_nil_r. apply SE.
Qed.

(** Restoring keeps the gain caches exact, in any order of the additions. *)
Theorem C83_gain_cache single pt bt k pins part en L W en' W' c adds :
  (single, pt, bt) = (km1_single, km1_pt, km1_bt) \/ (single, pt, bt) = (no_single, cut_pt, cut_bt) \/ (single, pt, bt) = (no_single, soed_pt, soed_bt) ->
  restorable pins en L -> restore_nets en W L en' W' ->
  Permutation adds (flat_map (restored_adds single part W' pins) L) ->
  cache_exact pt bt k part (map (fun e => (W e, pins e)) en) c ->
  cache_exact pt bt k part (map (fun e => (W' e, pins e)) en') (fold_left do_add adds c).
Proof.
  intros H. apply restore_cache. destruct H as [H|[H|H]]; injection H as -> -> ->.
  - exact km1_single_exact.
  - exact cut_single_exact.
  - exact soed_single_exact.
Qed.

(** The pin counts of a restored hyperedge are right. *)
Theorem C83_pin_counts k part pins en L pc : (forall p, part p < k) -> restorable pins en L ->
  (forall e b, In e en -> pc e b = counts part (pins e) b) ->
  forall x b, In x L -> restored_pc k part pins pc x b = counts part (pins (fst x)) b.
Proof.
  intros Hk [R1 R2 R3] Hpc [h o] b Hx. unfold restored_pc. cbn [fst snd]. destruct o as [rep|].
  - destruct (R3 h rep Hx) as (A & Q & Hl). destruct (Nat.eqb_spec (length (pins h)) 1) as [X|X]; [lia|].
    rewrite (counts_perm part _ _ b Q), <- (Hpc rep b A).
    assert (G : forall cs f, fold_left (fun f b => upd f b (pc rep b)) cs f b = if memb b cs then pc rep b else f b).
    { induction cs as [|z cs IH]; intros f; [reflexivity|]. cbn [fold_left]. rewrite IH. unfold memb. cbn [existsb]. fold (memb b cs).
      unfold upd. destruct (memb b cs); [rewrite orb_true_r; reflexivity|]. rewrite orb_false_r. destruct (Nat.eqb_spec b z) as [->|]; reflexivity. }
    rewrite G. destruct (memb_dec b (cset k (pc rep))) as [I|N]; [reflexivity|].
    destruct (Nat.eq_dec (pc rep b) 0) as [Z0|Z0]; [auto|]. exfalso. apply N. apply filter_In. split; [|apply Nat.ltb_lt; lia].
    apply in_seq. split; [lia|]. rewrite (Hpc rep b A) in Z0. assert (P0 : 0 < counts part (pins rep) b) by lia. apply counts_pos in P0.
    destruct P0 as (p & _ & <-). cbn. apply Hk.
  - rewrite (R2 h Hx), Nat.eqb_refl. specialize (R2 h Hx). destruct (pins h) as [|p [|q l]]; try discriminate.
    rewrite counts_one. unfold upd. rewrite (Nat.eqb_sym b (part p)). reflexivity.
Qed.

(** The representative has, when the removed hyperedges are restored, the pins
    it had when they were removed: [ops1] are the contractions before the
    removal, [ops2] those after it (all undone at stage [b]). *)
Theorem C83_representative_pins P0 ops1 ops2 e1 e2 rank par b0 b part s : NoDup P0 ->
  erun P0 ops1 e1 -> erun P0 (ops1 ++ ops2) e2 -> order_ok P0 (ops1 ++ ops2) rank par b0 ->
  urun (ops1 ++ ops2) e2 rank par b0 b part s ->
  (forall o, In o ops1 -> b <= rank (o_v o)) -> (forall o, In o ops2 -> rank (o_v o) < b) ->
  Permutation (valid (p_edge s)) (valid e1).
Proof.
  intros NP R1 R2 O U H1 H2. destruct (C81_pins P0 (ops1 ++ ops2) e2 rank par b0 NP R2 O b part s U) as [A1 A2].
  destruct (C81_contract P0 ops1 e1 NP R1) as [B1 B2]. apply NoDup_Permutation; auto. intros x. rewrite A2, B2.
  assert (E : filter (fun o => b <=? rank (o_v o)) (ops1 ++ ops2) = ops1); [|rewrite E; reflexivity].
  rewrite filter_app.
  assert (F1 : filter (fun o => b <=? rank (o_v o)) ops1 = ops1).
  { clear - H1. induction ops1 as [|o l IH]; [reflexivity|]. cbn. pose proof (H1 o (or_introl eq_refl)).
    destruct (Nat.leb_spec b (rank (o_v o))); [|lia]. f_equal. apply IH. intros o' Ho'. apply H1. right. exact Ho'. }
  assert (F2 : filter (fun o => b <=? rank (o_v o)) ops2 = []).
  { clear - H2. induction ops2 as [|o l IH]; [reflexivity|]. cbn. pose proof (H2 o (or_introl eq_refl)).
    destruct (Nat.leb_spec b (rank (o_v o))); [lia|]. apply IH. intros o' Ho'. apply H2. right. exact Ho'. }
  rewrite F1, F2. apply app_nil_r.
Qed.

(** ** Example: nets 0 = {1,2}, 1 = {3}, 2 = {1,2}, 3 = {1,3}, 4 = {1,2}, one bucket; footprint = sum *)
Definition exP (e : nat) : list nat := match e with 0 => [1;2] | 1 => [3] | 2 => [1;2] | 3 => [1;3] | 4 => [1;2] | _ => [] end.
Definition exHs (e : nat) : Z := Z.of_nat (list_sum (exP e)).
Definition exW (e : nat) : Z := Z.of_nat (e + 1).
Definition exL : list (nat * option nat) := [(4, Some 0); (1, None); (2, Some 0)].
Definition exW1 : nat -> Z := fst (buckets_run exP exHs exW [[0;2;4;3]]).
Theorem C83_example : exists en' W', remove_nets exP exHs (fun _ => 0) 1 [0;1;2;3;4] exW en' W' exL /\
  en' = [0;3] /\ map W' [0;3] = [9;4]%Z /\
  map (fold_left restore_weight exL W') [0;1;2;3;4] = map exW [0;1;2;3;4].
Proof.
  exists [0;3], exW1. split; [|split; [reflexivity|split; vm_compute; reflexivity]].
  apply rn_all with (order := [0]) (Bs := [[0;2;4;3]]) (rms := [(2,0);(4,0)]).
  - apply Permutation_refl.
  - reflexivity.
  - intros [|[|i]] B E; try discriminate. injection E as <-. split.
    + apply NoDup_Permutation; [repeat constructor; cbn; intuition discriminate|repeat constructor; cbn; intuition discriminate|].
      intros x. vm_compute. tauto.
    + repeat constructor; unfold before, exHs; cbn; lia.
  - unfold exW1. destruct (buckets_run exP exHs exW [[0;2;4;3]]) as [Wf rms] eqn:E. cbn [fst]. f_equal.
    change rms with (snd (Wf, rms)). rewrite <- E. vm_compute. reflexivity.
  - unfold exL. cbn. apply NoDup_Permutation; [repeat constructor; cbn; intuition discriminate|repeat constructor; cbn; intuition discriminate|].
    intros x. vm_compute. tauto.
  - reflexivity.
Qed.

(** Without equal footprints (as in a second V-cycle, C81_refuted_second_vcycle)
    identical nets are not merged. *)
Theorem C83_refuted_stale_footprint : exists en' W' L,
  remove_nets exP (fun e => Z.of_nat e) (fun _ => 0) 1 [0;2] exW en' W' L /\ en' = [0;2] /\ exP 0 = exP 2.
Proof.
  exists [0;2], (upd (upd exW 0 (exW 0)) 2 (exW 2)), []. split; [|split; reflexivity].
  apply rn_all with (order := [0]) (Bs := [[0;2]]) (rms := []).
  - apply Permutation_refl.
  - reflexivity.
  - intros [|[|i]] B E; try discriminate. injection E as <-. split; [apply Permutation_refl|].
    repeat constructor; unfold before; cbn; lia.
  - reflexivity.
  - apply Permutation_refl.
  - reflexivity.
Qed.
