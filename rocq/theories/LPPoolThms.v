(** LPPoolThms.v - what the parallel loops guarantee if the list of entries has no duplicates. *)
From Verif Require Import Base Spec SpecLemmas PHG PHGProofs GainCache Metrics Conc ConcProofs ConcMore ConcRun Scan LP LPPool.

Lemma adv_facts H n mops k c eff i m c' : Base H k n c eff -> (i < n)%nat -> mv_of (th c i) = Some m -> adv H mops c i = Some c' ->
  exists t, th c' = upd (th c) i t /\ (forall v, v <> m_u m -> part (sh c') v = part (sh c) v) /\
    ((mv_of t = Some m /\ rep c' = rep c /\ t <> Idle /\ (forall a, t <> Added m a)) \/
     (t = Idle /\ exists b, rep c' = (m, b) :: rep c /\ part (sh c') (m_u m) = Some (if b then m_to m else m_from m) /\ (b = false -> exists a, th c i = Added m a /\ m_max m < a))).
Proof.
  intros B Hi Em E. pose proof (b_cur H k n c eff B i m Hi Em) as Cu. unfold adv in E.
  destruct (th c i) as [|m1 a|m1|m1 rem|m1 e rem|m1 e rem fa|m1 rem su|m1 rem ops] eqn:Ei; try discriminate Em; cbn in Em; injection Em as ->; cbn [stored] in Cu.
  - destruct (Z.leb_spec a (m_max m)); injection E as <-; eexists; (split; [reflexivity|]).
    + split; [intros v Hv; cbn; apply upd_other; exact Hv|]. left. repeat split; congruence.
    + split; [intros v Hv; reflexivity|]. right. split; [reflexivity|]. exists false. split; [reflexivity|]. split; [exact Cu|]. intros _. exists a. split; [reflexivity|lia].
  - injection E as <-. eexists. split; [reflexivity|]. split; [intros v Hv; reflexivity|]. left. repeat split; congruence.
  - destruct rem as [|e rem].
    + injection E as <-. eexists. split; [reflexivity|]. split; [intros v Hv; reflexivity|]. right. split; [reflexivity|]. exists true. split; [reflexivity|]. split; [exact Cu|discriminate].
    + destruct (lk c e); [discriminate E|]. injection E as <-. eexists. split; [reflexivity|]. split; [intros v Hv; reflexivity|]. left. repeat split; congruence.
  - unfold decrementPinCountOfBlock in E. destruct (_ && _) in E; [|discriminate E]. injection E as <-. eexists. split; [reflexivity|].
    split; [intros v Hv; cbn; destruct (_ =? _); reflexivity|]. left. repeat split; congruence.
  - unfold incrementPinCountOfBlock in E. destruct (_ <? _)%nat in E; [|discriminate E]. injection E as <-. eexists. split; [reflexivity|].
    split; [intros v Hv; cbn; destruct (_ =? _); reflexivity|]. left. repeat split; congruence.
  - injection E as <-. eexists. split; [reflexivity|]. split; [intros v Hv; reflexivity|]. left. repeat split; congruence.
  - destruct ops as [|o ops].
    + injection E as <-. eexists. split; [reflexivity|]. split; [intros v Hv; reflexivity|]. left. repeat split; congruence.
    + destruct (exec_mop (part (sh c)) (gc c) o ops) as [c1 ops']. injection E as <-. eexists. split; [reflexivity|].
      split; [intros v Hv; reflexivity|]. left. repeat split; congruence.
Qed.

Section Inv.
Variables (H : hypergraph) (k n : nat) (mops : hypergraph -> sync_update -> list mop) (g : sync_update -> Z).
Variables (skip : partition -> nat -> bool) (may : partition -> mv -> Z -> bool) (again : mv -> Z -> bool -> Z -> option mv)
  (fin : mv -> Z -> bool -> bool -> Z -> partition -> nact -> nact).
Hypotheses (WF : wf_hg H) (Wn : forall v, In v (nodes H) -> 0 <= nw H v) (Wt : total_weight H <= MAXW).
(** The weight limit of the calls, what holds of the moves, what holds of an entry at the end, and of the activation data. *)
Variables (Lx : nat -> Z) (mok : mv -> Prop) (post : option nat -> nat -> Prop) (Q : nact -> Prop).
Variable act : list nat.
Definition nolim : Prop := forall c, Lx c = MAXW.
Hypothesis HM : forall P m x, may P m x = true -> P (m_u m) = Some (m_from m) -> In (m_u m) act -> m_from m <> m_to m /\ (m_to m < k)%nat /\ m_max m = Lx (m_to m) /\ mok m.
Hypothesis HA : forall m x b a m', again m x b a = Some m' -> mok m -> m' = mkMv (m_u m) (m_to m) (m_from m) (Lx (m_from m)) /\ (b = true \/ nolim) /\ mok m'.
Hypothesis HS : forall P v, skip P v = true -> post (P v) v.
Hypothesis HP : forall m (b : bool), mok m -> (b = true \/ ~ nolim) -> post (Some (if b then m_to m else m_from m)) (m_u m).
Hypothesis HQ : forall m x r b a P y, In (m_u m) (nodes H) -> Q y -> Q (fin m x r b a P y).
Local Notation pstep := (pstep H n mops g skip may again fin).
Local Notation prun := (prun H n mops g skip may again fin).
Variables (s0 : phg) (c0 : cache) (x0 : nact).
Hypotheses (CS : consistent H s0) (HC : complete H (part s0) (pk s0)) (Kk : pk s0 = k).
Hypotheses (An : incl act (nodes H)) (Nd : NoDup act) (Q0 : Q x0).

Definition owner (p : tpc) : option nat := match p with TIdle => None | TCall m _ _ | TIn m _ _ => Some (m_u m) end.
Definition mvt (p : tpc) : option mv := match p with TIdle => None | TCall m _ _ | TIn m _ _ => Some m end.
Record PI (st : pst) : Prop := {
  i_base : exists eff, Base H k n (p_c st) eff;
  i_run : exists ls, crun H n mops (cinit s0 c0) ls = Some (p_c st) /\ Forall (label_ok Lx) ls;
  i_th : forall i, (i < n)%nat -> mv_of (th (p_c st) i) = match p_pc st i with TIn m _ _ => Some m | _ => None end;
  i_call : forall i m x r, (i < n)%nat -> p_pc st i = TCall m x r -> part (sh (p_c st)) (m_u m) = Some (m_from m);
  i_mok : forall i m, (i < n)%nat -> mvt (p_pc st i) = Some m -> mok m /\ m_from m <> m_to m /\ (m_to m < k)%nat /\ (m_from m < k)%nat /\ m_max m = Lx (m_to m) /\ In (m_u m) act;
  i_bd : forall i m a, (i < n)%nat -> th (p_c st) i = Added m a -> a <= MAXW;
  i_own : forall i j v, (i < n)%nat -> (j < n)%nat -> owner (p_pc st i) = Some v -> owner (p_pc st j) = Some v -> i = j;
  i_out : forall i v, (i < n)%nat -> owner (p_pc st i) = Some v -> ~ In v (p_todo st) /\ ~ In v (p_fl st);
  i_idle : forall i, ~ (i < n)%nat -> p_pc st i = TIdle;
  i_todo : NoDup (p_todo st) /\ incl (p_todo st) act;
  i_fl : NoDup (p_fl st) /\ incl (p_fl st) act /\ forall v, In v (p_fl st) -> ~ In v (p_todo st) /\ exists m, mok m /\ m_u m = v;
  i_done : forall v, In v act -> In v (p_todo st) \/ (exists i, (i < n)%nat /\ owner (p_pc st i) = Some v) \/ post (part (sh (p_c st)) v) v;
  i_ch : forall v, part (sh (p_c st)) v <> part s0 v -> In v (p_fl st) \/ exists i, (i < n)%nat /\ owner (p_pc st i) = Some v;
  i_an : Q (p_an st) }.

Lemma mv_idle t : mv_of t = None -> t = Idle.
Proof. destruct t; cbn; intros E; congruence. Qed.
Lemma PI_init : PI (pinit s0 c0 act x0).
Proof.
  split; cbn [p_c p_todo p_pc p_acc p_fl p_an pinit owner mvt].
  - rewrite <- Kk. eexists. apply base_init; assumption.
  - exists []. split; [reflexivity|constructor].
  - reflexivity.
  - discriminate.
  - discriminate.
  - intros i m a _ X. discriminate X.
  - discriminate.
  - discriminate.
  - reflexivity.
  - split; [exact Nd|apply incl_refl].
  - split; [constructor|]. split; [intros v []|intros v []].
  - intros v Hv. left. exact Hv.
  - intros v X. exfalso. apply X. reflexivity.
  - exact Q0.
Qed.

(** The contract of changeNodePart is respected: a call always starts in a state in which Conc.v allows it. *)
Lemma go_legal st i m x r : PI st -> (i < n)%nat -> p_pc st i = TCall m x r -> cstep H n mops (p_c st) (Begin i m) = Some (ubegin H (p_c st) i m).
Proof.
  intros I Hi Ep. destruct (i_base st I) as [eff B]. pose proof (i_th st I i Hi) as T. rewrite Ep in T. apply mv_idle in T. cbn [cstep]. rewrite T.
  destruct (i_mok st I i m Hi ltac:(rewrite Ep; reflexivity)) as (_ & M1 & M2 & _ & _ & M3). pose proof (i_call st I i m x r Hi Ep) as Pu.
  assert (F : is_free n (p_c st) (m_u m) = true).
  { unfold is_free. apply forallb_forall. intros j Hj. apply in_seq in Hj. rewrite node_of_mv. destruct (mv_of (th (p_c st) j)) as [m'|] eqn:Ej; [|reflexivity]. apply negb_true_iff, Nat.eqb_neq. intros E.
    pose proof (i_th st I j ltac:(lia)) as Tj. rewrite Ej in Tj. destruct (p_pc st j) as [|? ? ?|m2 x2 r2] eqn:Ejp; try discriminate Tj. injection Tj as <-.
    assert (i = j) by (apply (i_own st I i j (m_u m) Hi ltac:(lia)); [rewrite Ep; reflexivity|rewrite Ejp; cbn [owner]; congruence]). congruence. }
  rewrite F, (b_k H k n _ eff B). rewrite (proj2 (Nat.ltb_lt i n) Hi), (proj2 (Nat.ltb_lt _ _) M2), (proj2 (Nat.eqb_neq _ _) M1). unfold in_block. rewrite Pu, Nat.eqb_refl.
  rewrite (proj2 (mem_In _ _) (An _ M3)). reflexivity.
Qed.
Lemma nolim_dec_ok (b : bool) m i a st : PI st -> (i < n)%nat -> (b = false -> exists a', th (p_c st) i = Added m a' /\ m_max m < a') -> m_max m = Lx (m_to m) -> a = b -> b = true \/ ~ nolim.
Proof.
  intros I Hi X M _. destruct b; [left; reflexivity|right]. intros NL. destruct (X eq_refl) as (a' & Et & Lt). pose proof (i_bd st I i m a' Hi Et). rewrite M, (NL (m_to m)) in Lt. lia.
Qed.

Lemma pstep_PI st l st' : PI st -> pstep st l = Some st' -> PI st'.
Proof.
  intros I E. destruct (i_base st I) as [eff B]. destruct (i_todo st I) as [T1 T2]. destruct (i_fl st I) as (F1 & F2 & F3). destruct l as [v|i m x|i|i]; cbn [LPPool.pstep] in E.
  - (* skip *)
    destruct (mem v (p_todo st) && skip (part (sh (p_c st))) v) eqn:G; [|discriminate]. injection E as <-. apply andb_true_iff in G. destruct G as [G1 G2]. apply mem_In in G1.
    destruct (rem1_nodup v (p_todo st) T1) as (R1 & R2 & R3). split; cbn [p_c p_todo p_pc p_acc p_fl p_an]; try apply I.
    + intros i w Hi Ow. destruct (i_out st I i w Hi Ow) as [X1 X2]. split; [intros X; apply X1; eapply rem1_In; exact X|exact X2].
    + split; [exact R1|]. intros w Hw. apply T2. eapply rem1_In. exact Hw.
    + split; [exact F1|]. split; [exact F2|]. intros w Hw. destruct (F3 w Hw) as [X1 X2]. split; [intros X; apply X1; eapply rem1_In; exact X|exact X2].
    + intros w Hw. destruct (Nat.eq_dec w v) as [->|Nw]; [right; right; apply HS; exact G2|]. destruct (i_done st I w Hw) as [X|X]; [left; apply R3; assumption|right; exact X].
  - (* take *)
    destruct (p_pc st i) eqn:Ep; try discriminate E. destruct ((i <? n)%nat && mem (m_u m) (p_todo st) && in_block (part (sh (p_c st))) (m_from m) (m_u m) && may (part (sh (p_c st))) m x) eqn:G; [|discriminate]. injection E as <-.
    apply andb_true_iff in G. destruct G as [G G4]. apply andb_true_iff in G. destruct G as [G G3]. apply andb_true_iff in G. destruct G as [G1 G2]. apply Nat.ltb_lt in G1. apply mem_In in G2.
    assert (Pu : part (sh (p_c st)) (m_u m) = Some (m_from m)) by (unfold in_block in G3; destruct (part (sh (p_c st)) (m_u m)) as [q|]; [apply Nat.eqb_eq in G3; congruence|discriminate]).
    destruct (rem1_nodup (m_u m) (p_todo st) T1) as (R1 & R2 & R3). destruct (HM _ _ _ G4 Pu (T2 _ G2)) as (M1 & M2 & M3 & M4).
    assert (NF : ~ In (m_u m) (p_fl st)) by (intros X; apply (proj1 (F3 _ X)); exact G2).
    split; cbn [p_c p_todo p_pc p_acc p_fl p_an]; try apply I.
    + intros j Hj. unfold upd. destruct (Nat.eqb_spec j i) as [->|Nj]; [|apply I; exact Hj]. pose proof (i_th st I i G1) as X. rewrite Ep in X. exact X.
    + intros j m' x' r Hj. unfold upd. destruct (Nat.eqb_spec j i) as [->|Nj]; [intros X; injection X as <- <- <-; exact Pu|apply I; exact Hj].
    + intros j m' Hj. unfold upd. destruct (Nat.eqb_spec j i) as [->|Nj]; [|apply I; exact Hj]. cbn [mvt]. intros X. injection X as <-. split; [exact M4|]. split; [exact M1|]. split; [exact M2|]. split; [eapply (b_part H k n _ eff B); exact Pu|]. split; [exact M3|apply T2; exact G2].
    + intros a b w Ha Hb. unfold upd. destruct (Nat.eqb_spec a i) as [Ea|Na], (Nat.eqb_spec b i) as [Eb|Nb]; cbn [owner]; intros Oa Ob; [congruence| | |apply (i_own st I a b w Ha Hb Oa Ob)].
      * injection Oa as <-. exfalso. apply (proj1 (i_out st I b _ Hb Ob)). exact G2.
      * injection Ob as <-. exfalso. apply (proj1 (i_out st I a _ Ha Oa)). exact G2.
    + intros j w Hj. unfold upd. destruct (Nat.eqb_spec j i) as [Ea|Na]; cbn [owner]; intros Ow.
      * injection Ow as <-. split; assumption.
      * destruct (i_out st I j w Hj Ow) as [X1 X2]. split; [intros X; apply X1; eapply rem1_In; exact X|exact X2].
    + intros j Hj. unfold upd. destruct (Nat.eqb_spec j i) as [->|Nj]; [contradiction|apply I; exact Hj].
    + split; [exact R1|]. intros w Hw. apply T2. eapply rem1_In. exact Hw.
    + split; [exact F1|]. split; [exact F2|]. intros w Hw. destruct (F3 w Hw) as [X1 X2]. split; [intros X; apply X1; eapply rem1_In; exact X|exact X2].
    + intros w Hw. destruct (Nat.eq_dec w (m_u m)) as [->|Nw]; [right; left; exists i; split; [exact G1|rewrite upd_same; reflexivity]|].
      destruct (i_done st I w Hw) as [X|[(j & Hj & Ow)|X]]; [left; apply R3; assumption| |right; right; exact X]. right. left. exists j. split; [exact Hj|]. rewrite upd_other; [exact Ow|]. intros ->. rewrite Ep in Ow. discriminate.
    + intros w Hw. destruct (i_ch st I w Hw) as [X|(j & Hj & Ow)]; [left; exact X|right]. exists j. split; [exact Hj|]. rewrite upd_other; [exact Ow|]. intros ->. rewrite Ep in Ow. discriminate.
  - (* go *)
    destruct (p_pc st i) as [|m x r|] eqn:Ep; try discriminate E. injection E as <-.
    assert (Hi : (i < n)%nat) by (destruct (Nat.ltb_spec i n); [assumption|]; rewrite (i_idle st I i ltac:(lia)) in Ep; discriminate).
    pose proof (go_legal st i m x r I Hi Ep) as Lg. pose proof (step_base H k n mops WF (p_c st) eff (Begin i m) _ B Lg) as B'.
    assert (Ow : forall j, owner (upd (p_pc st) i (TIn m x r) j) = owner (p_pc st j)) by (intros j; unfold upd; destruct (Nat.eqb_spec j i) as [->|]; [rewrite Ep|]; reflexivity).
    destruct (i_mok st I i m Hi ltac:(rewrite Ep; reflexivity)) as (M0 & M1 & M2 & M2' & M3 & M4).
    split; cbn [p_c p_todo p_pc p_acc p_fl p_an]; try apply I.
    + eauto.
    + destruct (i_run st I) as (ls & R & Fo). exists (ls ++ [Begin i m]). split; [|apply Forall_app; split; [exact Fo|constructor; [cbn; lia|constructor]]].
      unfold crun in *. rewrite fold_opt_app, R. cbn [fold_opt]. rewrite Lg. reflexivity.
    + intros j Hj. cbn [ubegin set_th th]. unfold upd. destruct (Nat.eqb_spec j i) as [->|Nj]; [reflexivity|apply I; exact Hj].
    + intros j m' x' r' Hj. unfold upd. destruct (Nat.eqb_spec j i) as [->|Nj]; [discriminate|apply I; exact Hj].
    + intros j m' Hj. unfold upd. destruct (Nat.eqb_spec j i) as [->|Nj]; [|apply I; exact Hj]. cbn [mvt]. intros X. injection X as <-. tauto.
    + intros j m' a Hj. cbn [ubegin set_th th]. unfold upd at 1. destruct (Nat.eqb_spec j i) as [->|Nj]; [|apply I; exact Hj]. intros X. injection X as <- <-.
      pose proof (wt_total H k n _ _ (m_to m) WF Wn B' M2) as X. unfold ubegin in X. cbn [set_th set_sh sh] in X. cbn [set_th set_sh sh]. unfold add_wt in X. cbn [wt] in X. lia.
    + intros a b w Ha Hb. rewrite !Ow. apply I; assumption.
    + intros j w Hj. rewrite Ow. apply I. exact Hj.
    + intros j Hj. unfold upd. destruct (Nat.eqb_spec j i) as [->|Nj]; [contradiction|apply I; exact Hj].
    + intros w Hw. destruct (i_done st I w Hw) as [X|[(j & Hj & O)|X]]; [left; exact X|right; left; exists j; split; [exact Hj|rewrite Ow; exact O]|right; right; exact X].
    + intros w Hw. destruct (i_ch st I w Hw) as [X|(j & Hj & O)]; [left; exact X|right; exists j; split; [exact Hj|rewrite Ow; exact O]].
  - (* adv *)
    destruct (p_pc st i) as [| |m x r] eqn:Ep; try discriminate E. destruct (adv H mops (p_c st) i) as [c'|] eqn:Ea; [|discriminate].
    assert (Hi : (i < n)%nat) by (destruct (Nat.ltb_spec i n); [assumption|]; rewrite (i_idle st I i ltac:(lia)) in Ep; discriminate).
    pose proof (i_th st I i Hi) as Tm. rewrite Ep in Tm. assert (Es : cstep H n mops (p_c st) (Adv i) = Some c') by (cbn [cstep]; rewrite (proj2 (Nat.ltb_lt i n) Hi); exact Ea).
    pose proof (step_base H k n mops WF (p_c st) eff (Adv i) c' B Es) as B'.
    destruct (adv_facts H n mops k (p_c st) eff i m c' B Hi Tm Ea) as (t & Et & Po & Ca).
    destruct (i_mok st I i m Hi ltac:(rewrite Ep; reflexivity)) as (M0 & M1 & M2 & M2' & M3 & M4).
    assert (Run' : exists ls, crun H n mops (cinit s0 c0) ls = Some c' /\ Forall (label_ok Lx) ls).
    { destruct (i_run st I) as (ls & R & Fo). exists (ls ++ [Adv i]). split; [|apply Forall_app; split; [exact Fo|constructor; [exact Logic.I|constructor]]].
      unfold crun in *. rewrite fold_opt_app, R. cbn [fold_opt]. rewrite Es. reflexivity. }
    assert (Oi : owner (p_pc st i) = Some (m_u m)) by (rewrite Ep; reflexivity).
    assert (Oth : forall j w, (j < n)%nat -> j <> i -> owner (p_pc st j) = Some w -> w <> m_u m) by (intros j w Hj Nj O ->; apply Nj; apply (i_own st I j i _ Hj Hi O Oi)).
    assert (Cal : forall j m' x' r', (j < n)%nat -> j <> i -> p_pc st j = TCall m' x' r' -> part (sh c') (m_u m') = Some (m_from m')).
    { intros j m' x' r' Hj Nj Ej. rewrite Po; [eapply (i_call st I); eauto|]. apply (Oth j (m_u m') Hj Nj). rewrite Ej. reflexivity. }
    assert (Ad : forall j m' a, (j < n)%nat -> th c' j = Added m' a -> a <= MAXW).
    { intros j m' a Hj X. rewrite Et in X. unfold upd in X. destruct (Nat.eqb_spec j i) as [->|Nj]; [|exact (i_bd st I j m' a Hj X)].
      destruct Ca as [(C1 & _ & _ & C4)|(C1 & _)]; [|congruence]. subst t. cbn in C1. injection C1 as ->. exfalso. exact (C4 a eq_refl). }
    destruct Ca as [(C1 & C2 & C3 & C4)|(C1 & b & C2 & C3 & C4)].
    + (* the call goes on *)
      assert (Id : idleb (th c' i) = false) by (rewrite Et, upd_same; destruct t; try reflexivity; congruence). rewrite Id in E. injection E as <-.
      split; cbn [p_c p_todo p_pc p_acc p_fl p_an]; try apply I; try assumption.
      * eauto.
      * intros j Hj. rewrite Et. unfold upd. destruct (Nat.eqb_spec j i) as [->|Nj]; [rewrite Ep; exact C1|apply I; exact Hj].
      * intros j m' x' r' Hj Ej. apply (Cal j m' x' r' Hj); [|exact Ej]. intros ->. congruence.
      * intros w Hw. destruct (i_done st I w Hw) as [X|[X|X]]; [left; exact X|right; left; exact X|]. destruct (Nat.eq_dec w (m_u m)) as [->|Nw]; [right; left; exists i; auto|right; right; rewrite Po by exact Nw; exact X].
      * intros w Hw. destruct (Nat.eq_dec w (m_u m)) as [->|Nw]; [right; exists i; auto|]. apply I. rewrite <- (Po w Nw). exact Hw.
    + (* the call ends *)
      subst t. assert (Id : idleb (th c' i) = true) by (rewrite Et, upd_same; reflexivity). rewrite Id, C2 in E. cbn [fst snd] in E.
      pose proof (nolim_dec_ok b m i b st I Hi C4 M3 eq_refl) as NL.
      destruct (after_call again m x r b _) as [m'|] eqn:AC; injection E as <-.
      * (* another call *)
        unfold after_call in AC. destruct r; [discriminate AC|]. destruct (HA _ _ _ _ _ AC M0) as (-> & NB & M'). assert (Eb : b = true) by tauto. rewrite Eb in C3. clear NB AC C4 NL.
        assert (Ow : forall j, owner (upd (p_pc st) i (TCall (mkMv (m_u m) (m_to m) (m_from m) (Lx (m_from m))) x true) j) = owner (p_pc st j)) by (intros j; unfold upd; destruct (Nat.eqb_spec j i) as [->|]; [rewrite Ep|]; reflexivity).
        split; cbn [p_c p_todo p_pc p_acc p_fl p_an]; try apply I; try assumption.
        -- eauto.
        -- intros j Hj. rewrite Et. unfold upd. destruct (Nat.eqb_spec j i) as [->|Nj]; [reflexivity|apply I; exact Hj].
        -- intros j m1 x1 r1 Hj. unfold upd. destruct (Nat.eqb_spec j i) as [->|Nj]; [intros X; injection X as <- <- <-; exact C3|apply Cal; assumption].
        -- intros j m1 Hj. unfold upd. destruct (Nat.eqb_spec j i) as [->|Nj]; [|apply I; exact Hj]. cbn [mvt]. intros X. injection X as <-. cbn [m_u m_from m_to m_max]. repeat split; auto; congruence.
        -- intros a1 b1 w Ha Hb. rewrite !Ow. apply I; assumption.
        -- intros j w Hj. rewrite Ow. apply I. exact Hj.
        -- intros j Hj. unfold upd. destruct (Nat.eqb_spec j i) as [->|Nj]; [contradiction|apply I; exact Hj].
        -- intros w Hw. destruct (i_done st I w Hw) as [X|[(j & Hj & O)|X]]; [left; exact X|right; left; exists j; split; [exact Hj|rewrite Ow; exact O]|].
           destruct (Nat.eq_dec w (m_u m)) as [->|Nw]; [right; left; exists i; split; [exact Hi|rewrite Ow; exact Oi]|right; right; rewrite Po by exact Nw; exact X].
        -- intros w Hw. destruct (Nat.eq_dec w (m_u m)) as [->|Nw]; [right; exists i; split; [exact Hi|rewrite Ow; exact Oi]|].
           rewrite (Po w Nw) in Hw. destruct (i_ch st I w Hw) as [X|(j & Hj & O)]; [left; exact X|right; exists j; split; [exact Hj|rewrite Ow; exact O]].
      * (* finished *)
        assert (Ow : forall j w, owner (upd (p_pc st) i TIdle j) = Some w -> j <> i /\ owner (p_pc st j) = Some w) by (intros j w; unfold upd; destruct (Nat.eqb_spec j i) as [->|Nj]; [discriminate|auto]).
        assert (Ow' : forall j w, j <> i -> owner (p_pc st j) = Some w -> owner (upd (p_pc st) i TIdle j) = Some w) by (intros j w Nj O; rewrite upd_other by exact Nj; exact O).
        destruct (i_out st I i (m_u m) Hi Oi) as [O1 O2].
        split; cbn [p_c p_todo p_pc p_acc p_fl p_an]; try apply I; try assumption.
        -- eauto.
        -- intros j Hj. rewrite Et. unfold upd. destruct (Nat.eqb_spec j i) as [->|Nj]; [reflexivity|apply I; exact Hj].
        -- intros j m1 x1 r1 Hj. unfold upd. destruct (Nat.eqb_spec j i) as [->|Nj]; [discriminate|apply Cal; assumption].
        -- intros j m1 Hj. unfold upd. destruct (Nat.eqb_spec j i) as [->|Nj]; [discriminate|apply I; exact Hj].
        -- intros a1 b1 w Ha Hb Oa Ob. apply (i_own st I a1 b1 w Ha Hb); [apply (Ow _ _ Oa)|apply (Ow _ _ Ob)].
        -- intros j w Hj O. destruct (Ow j w O) as [Nj O']. destruct (i_out st I j w Hj O') as [X1 X2]. split; [exact X1|]. intros X. apply in_app_or in X. destruct X as [X|[X|[]]]; [contradiction|]. exact (Oth j w Hj Nj O' (eq_sym X)).
        -- intros j Hj. unfold upd. destruct (Nat.eqb_spec j i) as [->|Nj]; [reflexivity|apply I; exact Hj].
        -- split; [apply (Permutation_NoDup (l := m_u m :: p_fl st)); [apply Permutation_cons_append|constructor; assumption]|]. split; [intros w Hw; apply in_app_or in Hw; destruct Hw as [Hw|[<-|[]]]; [apply F2; exact Hw|exact M4]|].
           intros w Hw. apply in_app_or in Hw. destruct Hw as [Hw|[<-|[]]]; [apply F3; exact Hw|]. split; [exact O1|exists m; auto].
        -- intros w Hw. destruct (Nat.eq_dec w (m_u m)) as [->|Nw]; [right; right; rewrite C3; apply HP; assumption|]. rewrite (Po w Nw).
           destruct (i_done st I w Hw) as [X|[(j & Hj & O)|X]]; [left; exact X| |right; right; exact X]. right. left. exists j. split; [exact Hj|apply Ow'; [|exact O]]. intros ->. congruence.
        -- intros w Hw. destruct (Nat.eq_dec w (m_u m)) as [->|Nw]; [left; apply in_or_app; right; left; reflexivity|]. rewrite (Po w Nw) in Hw.
           destruct (i_ch st I w Hw) as [X|(j & Hj & O)]; [left; apply in_or_app; left; exact X|right]. exists j. split; [exact Hj|apply Ow'; [|exact O]]. intros ->. congruence.
        -- apply HQ; [apply An; exact M4|apply I].
Qed.
Theorem prun_PI l : forall st st', PI st -> prun st l = Some st' -> PI st'.
Proof.
  unfold LPPool.prun. induction l as [|a l IH]; intros st st' I E; cbn [fold_opt] in E; [injection E as <-; exact I|].
  destruct (pstep st a) as [st1|] eqn:E1; [|discriminate]. exact (IH st1 st' (pstep_PI st a st1 I E1) E).
Qed.

(** Once the loop is over. *)
Theorem pool_done l st : prun (pinit s0 c0 act x0) l = Some st -> pdone n st ->
  pk (sh (p_c st)) = k /\ consistent H (sh (p_c st)) /\ complete H (part (sh (p_c st))) k /\ NoDup (p_fl st) /\ incl (p_fl st) act /\
  (forall v, part (sh (p_c st)) v <> part s0 v -> In v (p_fl st)) /\ (forall v, In v act -> post (part (sh (p_c st)) v) v) /\
  (forall v, In v (p_fl st) -> exists m, mok m /\ m_u m = v) /\ Q (p_an st) /\
  (exists ls, crun H n mops (cinit s0 c0) ls = Some (p_c st) /\ Forall (label_ok Lx) ls /\ quiescent n (p_c st)).
Proof.
  intros E [D1 D2]. pose proof (prun_PI l _ _ PI_init E) as I. destruct (i_run st I) as (ls & R & Fo).
  assert (Qu : quiescent n (p_c st)) by (intros i Hi; apply mv_idle; rewrite (i_th st I i Hi), (D2 i Hi); reflexivity).
  destruct (conc_quiescent H n mops WF s0 c0 ls (p_c st) CS HC R Qu) as (A1 & A2 & A3 & _). rewrite Kk in *.
  destruct (i_fl st I) as (F1 & F2 & F3). split; [exact A1|]. split; [exact A2|]. split; [exact A3|]. split; [exact F1|]. split; [exact F2|].
  split; [intros v Hv; destruct (i_ch st I v Hv) as [X|(i & Hi & O)]; [exact X|rewrite (D2 i Hi) in O; discriminate]|].
  split; [intros v Hv; destruct (i_done st I v Hv) as [X|[(i & Hi & O)|X]]; [rewrite D1 in X; destruct X|rewrite (D2 i Hi) in O; discriminate|exact X]|].
  split; [intros v Hv; apply F3; exact Hv|]. split; [apply I|]. exists ls. auto.
Qed.
End Inv.
