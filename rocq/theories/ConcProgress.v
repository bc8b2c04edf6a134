(** ConcProgress.v - concurrent moves never deadlock, and every started move finishes. *)
From Verif Require Import Base Spec SpecLemmas PHG PHGProofs Objective GainCache GainCacheProofs Conc ConcProofs ConcMore ConcRun.

Section Progress.
Variables (H : hypergraph) (n : nat) (mops : hypergraph -> sync_update -> list mop).
Hypothesis WF : wf_hg H.

Definition LockInv (st : cst) : Prop := forall e, lk st e = true -> exists i, (i < n)%nat /\ holds (th st i) = Some e.

Lemma lock_keep (st : cst) i t (lk' : nat -> bool) :
  LockInv st -> (i < n)%nat ->
  (forall e, lk' e = true -> holds t = Some e \/ (lk st e = true /\ holds (th st i) <> Some e) \/ (lk st e = true /\ holds t = holds (th st i))) ->
  forall e, lk' e = true -> exists j, (j < n)%nat /\ holds (upd (th st) i t j) = Some e.
Proof.
  intros L Hi X e He. destruct (X e He) as [E|[[E1 E2]|[E1 E2]]].
  - exists i. rewrite upd_same. tauto.
  - destruct (L e E1) as (j & Hj & Ej). exists j. split; [exact Hj|].
    rewrite upd_other; [exact Ej|]. intros ->. contradiction.
  - destruct (L e E1) as (j & Hj & Ej). exists j. split; [exact Hj|].
    destruct (Nat.eq_dec j i) as [->|Hn]; [rewrite upd_same; congruence|rewrite upd_other by exact Hn; exact Ej].
Qed.

Lemma lock_step st l st' : LockInv st -> cstep H n mops st l = Some st' -> LockInv st'.
Proof.
  intros L Hs. unfold LockInv. destruct l as [i m|i]; simpl in Hs.
  - destruct (th st i) eqn:Et; try discriminate. destruct (_ && _) eqn:Eg in Hs; [|discriminate]. injection Hs as <-.
    repeat (apply andb_true_iff in Eg; destruct Eg as [Eg ?]). apply Nat.ltb_lt in Eg. simpl.
    apply (lock_keep st i _ (lk st) L Eg). intros e He. right; right. rewrite Et. simpl. tauto.
  - destruct (i <? n)%nat eqn:Hi0; [|discriminate]. apply Nat.ltb_lt in Hi0. rename Hi0 into Hi.
    unfold adv in Hs. destruct (th st i) as [|m a|m|m rem|m e rem|m e rem fa|m rem su|m rem ops] eqn:Et; try discriminate.
    + destruct (a <=? m_max m); injection Hs as <-; simpl; apply (lock_keep st i _ (lk st) L Hi); intros e He;
        right; right; rewrite Et; simpl; tauto.
    + injection Hs as <-. simpl. apply (lock_keep st i _ (lk st) L Hi). intros e He. right; right. rewrite Et; simpl; tauto.
    + destruct rem as [|e rem].
      * injection Hs as <-. simpl. apply (lock_keep st i _ (lk st) L Hi). intros e He. right; right. rewrite Et; simpl; tauto.
      * destruct (lk st e) eqn:El; [discriminate|]. injection Hs as <-. simpl.
        apply (lock_keep st i _ (upd (lk st) e true) L Hi). intros e'. unfold upd. simpl.
        destruct (Nat.eqb_spec e' e) as [->|Hne]; [tauto|]. intros He. right; left. rewrite Et. simpl. split; [exact He|discriminate].
    + destruct (decrementPinCountOfBlock _ _ _) as [[? ?]|]; [|discriminate]. injection Hs as <-. simpl.
      apply (lock_keep st i _ (lk st) L Hi). intros e' He. right; right. rewrite Et; simpl; tauto.
    + destruct (incrementPinCountOfBlock _ _ _) as [[? ?]|]; [|discriminate]. injection Hs as <-. simpl.
      apply (lock_keep st i _ (lk st) L Hi). intros e' He. right; right. rewrite Et; simpl; tauto.
    + injection Hs as <-. simpl. apply (lock_keep st i _ (upd (lk st) (su_he su) false) L Hi). intros e'. unfold upd.
      destruct (Nat.eqb_spec e' (su_he su)) as [->|Hne]; [discriminate|]. intros He. right; left. rewrite Et. simpl.
      split; [exact He|congruence].
    + destruct ops as [|o ops].
      * injection Hs as <-. simpl. apply (lock_keep st i _ (lk st) L Hi). intros e He. right; right. rewrite Et; simpl; tauto.
      * destruct (exec_mop _ _ _ _). injection Hs as <-. simpl. apply (lock_keep st i _ (lk st) L Hi).
        intros e He. right; right. rewrite Et; simpl; tauto.
Qed.

Lemma step_enabled k st eff i : Base H k n st eff -> (i < n)%nat -> th st i <> Idle ->
  (forall m e rem, th st i = Edges m (e :: rem) -> lk st e = false) -> exists st', cstep H n mops st (Adv i) = Some st'.
Proof.
  intros B Hi Hni Hl. simpl. replace (i <? n)%nat with true by (symmetry; apply Nat.ltb_lt; exact Hi). unfold adv.
  destruct (th st i) as [|m a|m|m rem|m e rem|m e rem fa|m rem su|m rem ops] eqn:Et.
  - congruence.
  - destruct (a <=? m_max m); eauto.
  - eauto.
  - destruct rem as [|e rem]; [eauto|]. rewrite (Hl m e rem eq_refl). eauto.
  - assert (Hm : mv_of (th st i) = Some m) by (rewrite Et; reflexivity).
    destruct (b_mv H k n st eff B i m Hi Hm) as (M1 & M2 & M3 & M4).
    destruct (b_pend H k n st eff B i m Hi Hm) as [Pn Pi]. rewrite Et in Pi. simpl in Pi.
    assert (He : In e (edges H) /\ In (m_u m) (pins H e)) by (apply (wf_inc H WF _ e M1), Pi; left; reflexivity).
    destruct He as [He Hpin].
    assert (Hhold : holds (th st i) = Some e) by (rewrite Et; reflexivity).
    assert (Heu : eff e (m_u m) = Some (m_from m)) by (eapply b_eff1; eauto; rewrite Et; left; reflexivity).
    assert (Hc : 0 < pc (sh st) e (m_from m)).
    { rewrite (b_pc H k n st eff B e _ He M4), (sum_half_one H k n mops st eff i e _ B Hi Hhold), Et. simpl. rewrite Z.sub_0_r.
      apply pin_count_pos_iff. exists (m_u m). tauto. }
    unfold decrementPinCountOfBlock. rewrite (b_k H k n st eff B).
    replace (m_from m <? k)%nat with true by (symmetry; apply Nat.ltb_lt; exact M4).
    replace (0 <? pc (sh st) e (m_from m)) with true by lia. simpl. eauto.
  - assert (Hm : mv_of (th st i) = Some m) by (rewrite Et; reflexivity).
    destruct (b_mv H k n st eff B i m Hi Hm) as (M1 & M2 & M3 & M4).
    unfold incrementPinCountOfBlock. rewrite (b_k H k n st eff B).
    replace (m_to m <? k)%nat with true by (symmetry; apply Nat.ltb_lt; exact M3). eauto.
  - eauto.
  - destruct ops as [|o ops]; [eauto|]. destruct (exec_mop _ _ _ _). eauto.
Qed.

Theorem progress s c l st : consistent H s -> complete H (part s) (pk s) ->
  crun H n mops (cinit s c) l = Some st -> ~ quiescent n st -> exists i st', cstep H n mops st (Adv i) = Some st'.
Proof.
  intros C HC E NQ.
  assert (X : forall l st0 eff, Base H (pk s) n st0 eff -> LockInv st0 -> crun H n mops st0 l = Some st ->
            exists eff', Base H (pk s) n st eff' /\ LockInv st).
  { clear E. unfold crun. induction l0 as [|a l0 IH]; intros st0 eff B R E; simpl in E.
    - injection E as <-. eauto.
    - destruct (cstep H n mops st0 a) as [st1|] eqn:E1; [|discriminate]. eapply IH; [| |exact E].
      + eapply step_base; eauto.
      + eapply lock_step; eauto. }
  destruct (X l (cinit s c) (fun _ => part s) (base_init H n mops s c C HC)) as (eff & B & L); [intros e; discriminate|exact E|].
  assert (Y : exists i, (i < n)%nat /\ th st i <> Idle).
  { destruct (existsb (fun i => match th st i with Idle => false | _ => true end) (seq 0 n)) eqn:Ex.
    - apply existsb_exists in Ex. destruct Ex as (i & Hi & Hx). apply in_seq in Hi. exists i. split; [lia|].
      intros Ei. rewrite Ei in Hx. discriminate.
    - exfalso. apply NQ. intros i Hi.
      destruct (th st i) eqn:Ei; [reflexivity|exfalso..];
        (assert (F : existsb (fun i => match th st i with Idle => false | _ => true end) (seq 0 n) = true);
          [apply existsb_exists; exists i; split; [apply in_seq; lia|rewrite Ei; reflexivity]|congruence]). }
  destruct Y as (i & Hi & Hni).
  destruct (th st i) as [|m a|m|m [|e rem]|m e rem|m e rem fa|m rem su|m rem ops] eqn:Et;
    try (exists i; eapply step_enabled; eauto; [rewrite Et; discriminate|intros m0 e0 rem0 Ex; rewrite Et in Ex; discriminate]).
  - congruence.
  - destruct (lk st e) eqn:El.
    + destruct (L e El) as (j & Hj & Hh). exists j. eapply step_enabled; eauto.
      * intros Ej. rewrite Ej in Hh. discriminate.
      * intros m0 e0 rem0 Ej. rewrite Ej in Hh. discriminate.
    + exists i. eapply step_enabled; eauto; [rewrite Et; discriminate|]. intros m0 e0 rem0 Ex. rewrite Et in Ex. injection Ex as <- <- <-. exact El.
Qed.

(** Termination: without new moves being started, the number of steps is bounded by the remaining work. *)
Definition opcost (o : mop) : nat := match o with MCondPen _ _ _ => 2 | _ => 1 end.
Definition opscost (l : list mop) : nat := list_sum (map opcost l).
Definition ecost (e : nat) : nat := (5 + 8 * length (pins H e))%nat.
Definition remcost (l : list nat) : nat := (1 + list_sum (map ecost l))%nat.
Definition tcost (t : tst) : nat :=
  match t with
  | Idle => 0
  | Added m _ => 2 + remcost (inc H (m_u m))
  | Stored m => 1 + remcost (inc H (m_u m))
  | Edges _ rem => remcost rem
  | Locked _ e rem => ecost e - 1 + remcost rem
  | Dec _ e rem _ => ecost e - 2 + remcost rem
  | Incd _ rem su => ecost (su_he su) - 3 + remcost rem
  | Delta _ rem ops => 1 + opscost ops + remcost rem
  end%nat.
Definition work (st : cst) : nat := list_sum (map (fun i => tcost (th st i)) (seq 0 n)).
Hypothesis Hcost : forall su, (opscost (mops H su) <= 8 * length (pins H (su_he su)))%nat.

Lemma work_upd (f : nat -> tst) i t : (i < n)%nat ->
  (list_sum (map (fun j => tcost (upd f i t j)) (seq 0 n)) + tcost (f i) = list_sum (map (fun j => tcost (f j)) (seq 0 n)) + tcost t)%nat.
Proof.
  intros Hi.
  assert (X : forall l, NoDup l -> (list_sum (map (fun j => tcost (upd f i t j)) l) + (if mem i l then tcost (f i) else 0) =
               list_sum (map (fun j => tcost (f j)) l) + (if mem i l then tcost t else 0))%nat).
  { induction l as [|a l IH]; intros Nd; simpl; [reflexivity|]. inversion Nd; subst. specialize (IH H3). unfold mem. simpl.
    fold (mem i l). destruct (Nat.eqb_spec i a) as [->|Hne]; simpl.
    - rewrite upd_same. replace (mem a l) with false in IH by (symmetry; apply mem_false; assumption). lia.
    - rewrite upd_other by congruence. lia. }
  specialize (X (seq 0 n) (seq_NoDup _ _)). rewrite (mem_seq i n Hi) in X. exact X.
Qed.

Lemma adv_decreases st i st' : cstep H n mops st (Adv i) = Some st' -> (work st' < work st)%nat.
Proof.
  intros Hs. simpl in Hs. destruct (i <? n)%nat eqn:Hi0; [|discriminate]. apply Nat.ltb_lt in Hi0. rename Hi0 into Hi.
  assert (X : exists t, th st' = upd (th st) i t /\ (tcost t < tcost (th st i))%nat).
  { unfold adv in Hs. destruct (th st i) as [|m a|m|m rem|m e rem|m e rem fa|m rem su|m rem ops] eqn:Et; try discriminate.
    - destruct (a <=? m_max m); injection Hs as <-; eexists; (split; [reflexivity|]); simpl; unfold remcost; lia.
    - injection Hs as <-; eexists; (split; [reflexivity|]); simpl; unfold remcost; lia.
    - destruct rem as [|e rem].
      + injection Hs as <-; eexists; (split; [reflexivity|]); simpl; unfold remcost; lia.
      + destruct (lk st e); [discriminate|]. injection Hs as <-; eexists; (split; [reflexivity|]); simpl; unfold remcost, ecost; simpl; lia.
    - destruct (decrementPinCountOfBlock _ _ _) as [[? ?]|]; [|discriminate]. injection Hs as <-; eexists; (split; [reflexivity|]); simpl; unfold ecost; lia.
    - destruct (incrementPinCountOfBlock _ _ _) as [[? ?]|]; [|discriminate]. injection Hs as <-; eexists; (split; [reflexivity|]); simpl; unfold ecost; lia.
    - injection Hs as <-; eexists; (split; [reflexivity|]); simpl; unfold ecost. specialize (Hcost su). lia.
    - destruct ops as [|o ops].
      + injection Hs as <-; eexists; (split; [reflexivity|]); simpl; lia.
      + destruct (exec_mop (part (sh st)) (gc st) o ops) as [c' ops'] eqn:Ex. injection Hs as <-. eexists; (split; [reflexivity|]).
        simpl. assert (Y : (opscost ops' < opscost (o :: ops))%nat); [|lia].
        destruct o; simpl in Ex; injection Ex as <- <-; unfold opscost; simpl; try lia. destruct (in_block _ _ _); simpl; lia. }
  destruct X as (t & Et & Ht). unfold work. rewrite Et. pose proof (work_upd (th st) i t Hi). lia.
Qed.

Theorem bounded_steps l : forall st st', Forall (fun a => exists i, a = Adv i) l -> crun H n mops st l = Some st' ->
  (length l <= work st)%nat.
Proof.
  unfold crun. induction l as [|a l IH]; intros st st' F E; simpl in *; [lia|].
  inversion F as [|x y [i Hx] Hl]; subst. destruct (cstep H n mops st (Adv i)) as [st1|] eqn:E1; [|discriminate].
  specialize (IH st1 st' Hl E). pose proof (adv_decreases st i st1 E1). lia.
Qed.
End Progress.

Lemma opscost_app l1 l2 : opscost (l1 ++ l2) = (opscost l1 + opscost l2)%nat.
Proof. unfold opscost. rewrite map_app, list_sum_app. reflexivity. Qed.
Lemma opscost_map l (mk : nat -> mop) c : (forall a, opcost (mk a) <= c)%nat -> (opscost (map mk l) <= c * length l)%nat.
Proof. intros Hc. unfold opscost. induction l as [|a l IH]; simpl; [lia|]. specialize (Hc a). lia. Qed.
Lemma opscost_flat l x y b : (opscost (flat_map (fun a => [MPen a x; MBen a b y]) l) <= 2 * length l)%nat.
Proof. unfold opscost. induction l as [|a l IH]; simpl; [lia|]. lia. Qed.
Lemma km1_cost H su : (opscost (km1_mops H su) <= 4 * length (pins H (su_he su)))%nat.
Proof.
  unfold km1_mops. cbv zeta. rewrite opscost_app.
  assert (A : forall b x, (opscost (map (fun v => MCondPen v b x) (pins H (su_he su))) <= 2 * length (pins H (su_he su)))%nat)
    by (intros; apply opscost_map; intros; simpl; lia).
  assert (B : forall b x, (opscost (map (fun v => MBen v b x) (pins H (su_he su))) <= 2 * length (pins H (su_he su)))%nat)
    by (intros; apply opscost_map; intros; simpl; lia).
  pose proof (A (su_from su) (- su_weight su)). pose proof (A (su_to su) (su_weight su)).
  pose proof (B (su_from su) (- su_weight su)). pose proof (B (su_to su) (su_weight su)).
  repeat match goal with |- context [opscost (if ?c then _ else _)] => destruct c end; change (opscost []) with 0%nat; lia.
Qed.
Lemma cut_part_cost H su : (opscost (cut_part_mops H su) <= 4 * length (pins H (su_he su)))%nat.
Proof.
  unfold cut_part_mops. cbv zeta. rewrite opscost_app.
  assert (B : forall b x, (opscost (map (fun v => MBen v b x) (pins H (su_he su))) <= 2 * length (pins H (su_he su)))%nat)
    by (intros; apply opscost_map; intros; simpl; lia).
  pose proof (opscost_flat (pins H (su_he su)) (- su_weight su) (su_weight su) (su_from su)).
  pose proof (opscost_flat (pins H (su_he su)) (su_weight su) (- su_weight su) (su_to su)).
  pose proof (B (su_from su) (- su_weight su)). pose proof (B (su_to su) (su_weight su)).
  repeat match goal with |- context [opscost (if ?c then _ else _)] => destruct c end; change (opscost []) with 0%nat; lia.
Qed.
Lemma km1_Hcost H su : (opscost (km1_mops H su) <= 8 * length (pins H (su_he su)))%nat.
Proof. pose proof (km1_cost H su). lia. Qed.
Lemma cut_Hcost H su : (opscost (cut_mops H su) <= 8 * length (pins H (su_he su)))%nat.
Proof. unfold cut_mops. pose proof (cut_part_cost H su). destruct (1 <? su_size su); change (opscost []) with 0%nat; lia. Qed.
Lemma soed_Hcost H su : (opscost (soed_mops H su) <= 8 * length (pins H (su_he su)))%nat.
Proof. unfold soed_mops. pose proof (cut_part_cost H su). pose proof (km1_cost H su). destruct (1 <? su_size su); [rewrite opscost_app|change (opscost []) with 0%nat]; lia. Qed.
