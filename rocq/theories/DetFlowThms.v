(** DetFlowThms.v - C76: whatever the schedule, every task of a matching does exactly what it would do on its own. *)
From Coq Require Import FunctionalExtensionality.
From Verif Require Import Base Spec SpecLemmas PHG PHGProofs Objective GainCache GainCacheProofs Metrics PropsA Conc ConcProofs ConcMore ConcRun ConcProgress Scan DetLP DetLPThms Interleave Rollback SeqRollback Rebalance LPPool LPPoolThms DetFlow.

Definition in_pair (t : task) (b : nat) : bool := Nat.eqb b (t_i t) || Nat.eqb b (t_j t).
(** Results of flow computations for a matching of block pairs: pairs of blocks below k, no block in two pairs; every sequence moves nodes
    of its pair inside its pair, every node once. *)
Definition valid_task (H : hypergraph) (k : nat) (P : partition) (t : task) : Prop :=
  (t_i t < k)%nat /\ (t_j t < k)%nat /\ NoDup (map (fun m => fst (fst m)) (t_mv t)) /\
  forall u from to, In (u, from, to) (t_mv t) -> In u (nodes H) /\ P u = Some from /\ in_pair t from = true /\ in_pair t to = true.
Definition valid_matching (H : hypergraph) (k : nat) (P : partition) (ts : list task) : Prop :=
  Forall (valid_task H k P) ts /\
  forall a b ta tb x, nth_error ts a = Some ta -> nth_error ts b = Some tb -> in_pair ta x = true -> in_pair tb x = true -> a = b.

(** What a sequence reports when it is applied alone. *)
Fixpoint slog (H : hypergraph) (P : partition) (l : list (nat * nat * nat)) : list sync_update :=
  match l with
  | [] => []
  | (u, from, to) :: r => (if Nat.eqb from to then [] else sus_of H P u from to) ++ slog H (move P u to) r
  end.

Definition remn (H : hypergraph) (t : tst) : list nat :=
  match t with
  | Idle => [] | Added m _ | Stored m => inc H (m_u m) | Edges _ rem => rem | Locked _ e rem | Dec _ e rem _ => e :: rem
  | Incd _ rem su => su_he su :: rem | Delta _ rem _ => rem
  end.
Definition entry (H : hypergraph) (P : partition) (f t e : nat) : sync_update :=
  mkSync e f t (ew H e) (Z.of_nat (length (pins H e))) (pin_count H P e f - 1) (pin_count H P e t + 1).

Lemma adv_log H mops c i c' : adv H mops c i = Some c' ->
  (exists m rem su, th c i = Incd m rem su /\ log c' = su :: log c /\ remn H (th c' i) = rem /\ (forall m' r s, th c' i <> Incd m' r s)) \/
  (log c' = log c /\ (forall m r su, th c i <> Incd m r su) /\
     ((th c' i <> Idle /\ remn H (th c' i) = remn H (th c i) /\
        (forall m r su, th c' i = Incd m r su -> exists fa, th c i = Dec m (su_he su) r fa /\
            su = mkSync (su_he su) (m_from m) (m_to m) (ew H (su_he su)) (Z.of_nat (length (pins H (su_he su)))) fa (pc (sh c) (su_he su) (m_to m) + 1))) \/
      (th c' i = Idle /\ ((exists m, th c i = Edges m []) \/ exists m a, th c i = Added m a /\ m_max m < a)))).
Proof.
  intros E. unfold adv in E.
  destruct (th c i) as [|m1 a|m1|m1 rem|m1 e rem|m1 e rem fa|m1 rem su|m1 rem ops] eqn:Ei; try discriminate E.
  - destruct (Z.leb_spec a (m_max m1)); injection E as <-; cbn; rewrite upd_same; right; (split; [reflexivity|]); (split; [discriminate|]).
    + left. split; [discriminate|]. split; [reflexivity|]. discriminate.
    + right. split; [reflexivity|]. right. exists m1, a. split; [reflexivity|lia].
  - injection E as <-. cbn. rewrite upd_same. right. split; [reflexivity|]. split; [discriminate|]. left. split; [discriminate|]. split; [reflexivity|]. discriminate.
  - destruct rem as [|e rem].
    + injection E as <-. cbn. rewrite upd_same. right. split; [reflexivity|]. split; [discriminate|]. right. split; [reflexivity|]. left. eauto.
    + destruct (lk c e); [discriminate E|]. injection E as <-. cbn. rewrite upd_same. right. split; [reflexivity|]. split; [discriminate|]. left. split; [discriminate|]. split; [reflexivity|]. discriminate.
  - unfold decrementPinCountOfBlock in E. destruct (_ && _) in E; [|discriminate E]. injection E as <-. cbn. rewrite upd_same.
    right. split; [reflexivity|]. split; [discriminate|]. left. split; [discriminate|]. split; [reflexivity|]. discriminate.
  - unfold incrementPinCountOfBlock in E. destruct (_ <? _)%nat in E; [|discriminate E]. injection E as <-. cbn. rewrite upd_same.
    right. split; [reflexivity|]. split; [discriminate|]. left. split; [discriminate|]. split; [reflexivity|].
    intros m r su X. injection X as <- <- <-. cbn. exists fa. split; reflexivity.
  - injection E as <-. cbn. rewrite upd_same. left. exists m1, rem, su. split; [reflexivity|]. split; [reflexivity|]. split; [reflexivity|discriminate].
  - destruct ops as [|op ops].
    + injection E as <-. cbn. rewrite upd_same. right. split; [reflexivity|]. split; [discriminate|]. left. split; [discriminate|]. split; [reflexivity|]. discriminate.
    + destruct (exec_mop (part (sh c)) (gc c) op ops) as [c1 ops']. injection E as <-. cbn. rewrite upd_same. right. split; [reflexivity|]. split; [discriminate|]. left. split; [discriminate|]. split; [reflexivity|]. discriminate.
Qed.

Lemma slog_app H a b : forall P, slog H P (a ++ b) = slog H P a ++ slog H (moves P (map (fun m : nat * nat * nat => (fst (fst m), snd m)) a)) b.
Proof.
  induction a as [|[[u f] t] a IH]; intros P; [reflexivity|]. cbn [app slog map fst snd moves fold_left]. rewrite IH, app_assoc. reflexivity.
Qed.

Lemma in_nds v (l : list (nat * nat * nat)) : In v (map (fun m : nat * nat * nat => fst (fst m)) l) -> exists f t, In (v, f, t) l.
Proof. intros I. apply in_map_iff in I. destruct I as ([[a f] t] & E & I). cbn in E. subst. eauto. Qed.
Lemma nds_in v f t (l : list (nat * nat * nat)) : In (v, f, t) l -> In v (map (fun m : nat * nat * nat => fst (fst m)) l).
Proof. intros I. apply in_map_iff. exists (v, f, t). auto. Qed.

Section Inv.
Variables (H : hypergraph) (k n : nat) (o : objective) (mops : hypergraph -> sync_update -> list mop) (T : nat -> task) (s0 : phg) (c0 : cache) (wm0 : list nat).
Hypotheses (WF : wf_hg H) (Wn : forall v, In v (nodes H) -> 0 <= nw H v) (Wt : total_weight H <= MAXW).
Hypotheses (CS : consistent H s0) (HC : complete H (part s0) (pk s0)) (Kk : pk s0 = k).
Local Notation P0 := (part s0).
Local Notation nds := (map (fun m : nat * nat * nat => fst (fst m))).
Local Notation tgt := (map (fun m : nat * nat * nat => (fst (fst m), snd m))).
Hypothesis HT : forall i, (i < n)%nat -> valid_task H k P0 (T i).
Hypothesis HD : forall i j x, (i < n)%nat -> (j < n)%nat -> in_pair (T i) x = true -> in_pair (T j) x = true -> i = j.

Definition cur (t : tst) : list (nat * nat * nat) := match mv_of t with None => [] | Some m => [(m_u m, m_from m, m_to m)] end.
Definition tlog (c : cst) (i : nat) : list sync_update := filter (fun su => in_pair (T i) (su_from su)) (rev (log c)).

Record DInv (st : dst) (dn : nat -> list (nat * nat * nat)) (eff : nat -> partition) : Prop := {
  i_base : Base H k n (d_c st) eff;
  i_run : exists ls, crun H n mops (cinit s0 c0) ls = Some (d_c st);
  i_split : forall i, (i < n)%nat -> t_mv (T i) = dn i ++ cur (th (d_c st) i) ++ d_todo st i;
  i_max : forall i m, (i < n)%nat -> mv_of (th (d_c st) i) = Some m -> m_max m = MAXW /\ forall m' a, th (d_c st) i = Added m' a -> a <= MAXW;
  i_part : forall i v f t, (i < n)%nat -> In (v, f, t) (dn i) -> part (sh (d_c st)) v = Some t;
  i_todo : forall i v f t, (i < n)%nat -> In (v, f, t) (d_todo st i) -> part (sh (d_c st)) v = Some f;
  i_rest : forall v, (forall i, (i < n)%nat -> ~ In v (nds (t_mv (T i)))) -> part (sh (d_c st)) v = P0 v;
  i_log : forall i, (i < n)%nat -> exists hd,
     tlog (d_c st) i = slog H P0 (dn i) ++ match mv_of (th (d_c st) i) with None => [] | Some m => map (entry H (moves P0 (tgt (dn i))) (m_from m) (m_to m)) hd end /\
     (forall m, mv_of (th (d_c st) i) = Some m -> inc H (m_u m) = hd ++ remn H (th (d_c st) i)) /\
     (forall m r su, th (d_c st) i = Incd m r su -> su = entry H (moves P0 (tgt (dn i))) (m_from m) (m_to m) (su_he su));
  i_pairs : forall su, In su (log (d_c st)) -> exists i, (i < n)%nat /\ in_pair (T i) (su_from su) = true /\ in_pair (T i) (su_to su) = true;
  i_imp : forall i, (i < n)%nat -> d_imp st i = - sumZ (gain_of o) (tlog (d_c st) i);
  i_new : d_new st = map (fun su => (su_he su, su_to su)) (filter (fun su => su_to_after su =? 1) (rev (log (d_c st)))) }.

Lemma same_task v i j : (i < n)%nat -> (j < n)%nat -> In v (nds (t_mv (T i))) -> In v (nds (t_mv (T j))) -> i = j.
Proof.
  intros Hi Hj Ii Ij. apply in_nds in Ii, Ij. destruct Ii as (f & t & Ii), Ij as (f' & t' & Ij).
  destruct (HT i Hi) as (_ & _ & _ & Vi). destruct (HT j Hj) as (_ & _ & _ & Vj).
  destruct (Vi _ _ _ Ii) as (_ & E1 & A & _). destruct (Vj _ _ _ Ij) as (_ & E2 & B & _). apply (HD i j f Hi Hj A). congruence.
Qed.
Lemma cur_in st dn eff i m : DInv st dn eff -> (i < n)%nat -> mv_of (th (d_c st) i) = Some m -> In (m_u m, m_from m, m_to m) (t_mv (T i)).
Proof. intros I Hi E. rewrite (i_split _ _ _ I i Hi). apply in_or_app. right. apply in_or_app. left. unfold cur. rewrite E. left. reflexivity. Qed.
Lemma unique3 i v f t f' t' : (i < n)%nat -> In (v, f, t) (t_mv (T i)) -> In (v, f', t') (t_mv (T i)) -> f = f' /\ t = t'.
Proof.
  intros Hi I J. destruct (HT i Hi) as (_ & _ & ND & _).
  assert (X : (v, f, t) = (v, f', t')); [|injection X as -> ->; auto].
  apply in_split in I. destruct I as (x & y & E). rewrite E in J, ND. apply in_app_or in J. destruct J as [J|[J|J]]; [| exact J|]; exfalso; rewrite map_app in ND; cbn [map fst] in ND; apply NoDup_remove_2 in ND; apply ND; apply in_or_app; [left|right]; eapply nds_in; eassumption.
Qed.
Lemma disj3 i a b c : (i < n)%nat -> t_mv (T i) = a ++ b ++ c -> forall v, (In v (nds a) -> In v (nds b) -> False) /\ (In v (nds a) -> In v (nds c) -> False) /\ (In v (nds b) -> In v (nds c) -> False).
Proof.
  intros Hi E v. destruct (HT i Hi) as (_ & _ & ND & _). rewrite E, !map_app in ND.
  assert (G : forall (x y : list nat), NoDup (x ++ y) -> In v x -> In v y -> False).
  { induction x as [|p x IH]; intros y N Hx Hy; [destruct Hx|]. cbn in N. inversion N; subst. destruct Hx as [->|Hx]; [apply H2; apply in_or_app; right; exact Hy|eapply IH; eauto]. }
  assert (ND2 := ND). apply NoDup_app_r in ND2. repeat split; intros A B; [eapply (G _ _ ND)| eapply (G _ _ ND)|eapply (G _ _ ND2)]; eauto; apply in_or_app; auto.
Qed.

(** Value of the per-hyperedge view on a node of task [j]. *)
Lemma eff_val st dn eff j v f t e : DInv st dn eff -> (j < n)%nat -> In (v, f, t) (t_mv (T j)) -> In e (edges H) -> In v (pins H e) ->
  (In (v, f, t) (dn j) /\ eff e v = Some t) \/ (In (v, f, t) (d_todo st j) /\ eff e v = Some f) \/
  (exists m, mv_of (th (d_c st) j) = Some m /\ m_u m = v /\ m_from m = f /\ m_to m = t /\
     (In e (pend H (th (d_c st) j)) /\ eff e v = Some f \/ ~ In e (pend H (th (d_c st) j)) /\ (eff e v = Some f \/ eff e v = Some t))).
Proof.
  intros I Hj Iv He Hv. pose proof (i_base _ _ _ I) as B. pose proof (i_split _ _ _ I j Hj) as E. pose proof (disj3 j _ _ _ Hj E v) as (D1 & D2 & D3).
  assert (Nm : forall i m, (i < n)%nat -> mv_of (th (d_c st) i) = Some m -> m_u m = v -> i = j).
  { intros i m Hi Em Ev. apply (same_task v i j Hi Hj); [|eapply nds_in; exact Iv]. rewrite <- Ev. eapply nds_in. eapply cur_in; eauto. }
  rewrite E in Iv. apply in_app_or in Iv. destruct Iv as [Iv|Iv]; [|apply in_app_or in Iv; destruct Iv as [Iv|Iv]].
  - left. split; [exact Iv|]. rewrite (b_eff2 H k n _ _ B e v He Hv); [eapply i_part; eauto|].
    intros i m Hi Em Ev _. rewrite (Nm i m Hi Em Ev) in Em. apply D1; [eapply nds_in; exact Iv|]. unfold cur. rewrite Em. left. exact Ev.
  - right; right. unfold cur in Iv. destruct (mv_of (th (d_c st) j)) as [m|] eqn:Em; [|destruct Iv]. destruct Iv as [Iv|[]]. injection Iv as Eu Ef Et.
    exists m. do 4 (split; [assumption || reflexivity|]).
    destruct (in_dec Nat.eq_dec e (pend H (th (d_c st) j))) as [Ip|Np].
    + left. split; [exact Ip|]. rewrite <- Ef, <- Eu. eapply b_eff1; eauto.
    + right. split; [exact Np|]. rewrite (b_eff2 H k n _ _ B e v He Hv).
      * rewrite <- Eu. rewrite (b_cur H k n _ _ B j m Hj Em). rewrite Ef, Et. destruct (stored _); auto.
      * intros i m' Hi Em' Ev. rewrite (Nm i m' Hi Em' Ev). exact Np.
  - right; left. split; [exact Iv|]. rewrite (b_eff2 H k n _ _ B e v He Hv); [eapply i_todo; eauto|].
    intros i m Hi Em Ev _. rewrite (Nm i m Hi Em Ev) in Em. apply D3; [|eapply nds_in; exact Iv]. unfold cur. rewrite Em. left. exact Ev.
Qed.
Lemma moves_dn st dn eff i v : DInv st dn eff -> (i < n)%nat ->
  (forall f t, In (v, f, t) (dn i) -> moves P0 (tgt (dn i)) v = Some t) /\ (~ In v (nds (dn i)) -> moves P0 (tgt (dn i)) v = P0 v).
Proof.
  intros I Hi. assert (EM : map fst (tgt (dn i)) = nds (dn i)) by (rewrite map_map; reflexivity). split.
  - intros f t In_. apply moves_in; [|apply in_map_iff; exists (v, f, t); auto]. rewrite EM. destruct (HT i Hi) as (_ & _ & ND & _). rewrite (i_split _ _ _ I i Hi), map_app in ND. apply NoDup_app_l in ND. exact ND.
  - intros N. apply moves_out. rewrite EM. exact N.
Qed.
Lemma view st dn eff i m e b v : DInv st dn eff -> (i < n)%nat -> mv_of (th (d_c st) i) = Some m -> In e (pend H (th (d_c st) i)) -> In e (edges H) ->
  in_pair (T i) b = true -> In v (pins H e) -> in_block (eff e) b v = in_block (moves P0 (tgt (dn i))) b v.
Proof.
  intros I Hi Em Ip He Hb Hv. pose proof (i_base _ _ _ I) as B. destruct (moves_dn _ _ _ i v I Hi) as [M1 M2].
  assert (OB : forall j c, (j < n)%nat -> j <> i -> in_pair (T j) c = true -> c <> b) by (intros j c Hj Ne Hc ->; apply Ne; apply (HD j i b Hj Hi Hc Hb)).
  destruct (existsb (fun j => mem v (nds (t_mv (T j)))) (seq 0 n)) eqn:X.
  - apply existsb_exists in X. destruct X as (j & Hj & Mv). apply in_seq in Hj. apply mem_In in Mv. apply in_nds in Mv. destruct Mv as (f & t & Iv).
    assert (Hj' : (j < n)%nat) by lia. destruct (HT j Hj') as (_ & _ & _ & V). destruct (V _ _ _ Iv) as (_ & Pv & Hf & Ht).
    pose proof (eff_val st dn eff j v f t e I Hj' Iv He Hv) as EV.
    destruct (Nat.eq_dec j i) as [->|Ne].
    + pose proof (disj3 i _ _ _ Hi (i_split _ _ _ I i Hi) v) as (D1 & D2 & D3).
      destruct EV as [[Id Ev]|[[It Ev]|(m' & Em' & Eu & Ef & Et & Ev)]].
      * unfold in_block. rewrite Ev, (M1 f t Id). reflexivity.
      * unfold in_block. rewrite Ev, M2, Pv; [reflexivity|]. intros Y. apply (D2 Y). eapply nds_in; exact It.
      * rewrite Em in Em'. injection Em' as <-. destruct Ev as [[_ Ev]|[Np _]]; [|contradiction].
        unfold in_block. rewrite Ev, M2, Pv; [reflexivity|]. intros Y. apply (D1 Y). unfold cur. rewrite Em. left. exact Eu.
    + rewrite <- (proj2 (moves_dn _ _ _ i v I Hi)) in Pv; [|intros Y; apply Ne; apply (same_task v j i Hj' Hi); [eapply nds_in; exact Iv|rewrite (i_split _ _ _ I i Hi), map_app; apply in_or_app; left; exact Y]].
      assert (F : forall c, (c = f \/ c = t) -> Nat.eqb c b = false) by (intros c [->| ->]; apply Nat.eqb_neq; apply (OB j); auto).
      unfold in_block. rewrite Pv, (F f) by auto. destruct EV as [[_ Ev]|[[_ Ev]|(m' & _ & _ & _ & _ & [[_ Ev]|[_ [Ev|Ev]]])]]; rewrite Ev; apply F; auto.
  - assert (Nv : forall j, (j < n)%nat -> ~ In v (nds (t_mv (T j)))).
    { intros j Hj Y. assert (existsb (fun j => mem v (nds (t_mv (T j)))) (seq 0 n) = true) by (apply existsb_exists; exists j; split; [apply in_seq; lia|apply mem_In; exact Y]). congruence. }
    unfold in_block. rewrite (b_eff2 H k n _ _ B e v He Hv).
    + rewrite (i_rest _ _ _ I v Nv), M2; [reflexivity|]. intros Y. apply (Nv i Hi). rewrite (i_split _ _ _ I i Hi), map_app. apply in_or_app. left. exact Y.
    + intros j m' Hj Em' Ev _. apply (Nv j Hj). rewrite <- Ev. eapply nds_in. eapply cur_in; eauto.
Qed.
Lemma view_count st dn eff i m e b : DInv st dn eff -> (i < n)%nat -> mv_of (th (d_c st) i) = Some m -> In e (pend H (th (d_c st) i)) -> In e (edges H) ->
  in_pair (T i) b = true -> pin_count H (eff e) e b = pin_count H (moves P0 (tgt (dn i))) e b.
Proof. intros. unfold pin_count. do 2 f_equal. apply filter_ext_in. intros v Hv. eapply view; eauto. Qed.

Lemma dinit_inv : DInv (dinit s0 c0 wm0 T) (fun _ => []) (fun _ => P0).
Proof.
  constructor; cbn [dinit d_c d_todo d_imp d_new cinit th sh log].
  - rewrite <- Kk. apply base_init; assumption.
  - exists []. reflexivity.
  - reflexivity.
  - intros i m Hi E. discriminate E.
  - intros i v f t Hi [].
  - intros i v f t Hi I. destruct (HT i Hi) as (_ & _ & _ & V). apply (V v f t I).
  - reflexivity.
  - intros i Hi. exists []. split; [reflexivity|]. split; [intros m E; discriminate E|]. intros m r su E. discriminate E.
  - intros su [].
  - reflexivity.
  - reflexivity.
Qed.

Lemma crun_snoc c ls st l st' : crun H n mops c ls = Some st -> cstep H n mops st l = Some st' -> exists ls', crun H n mops c ls' = Some st'.
Proof. intros E1 E2. exists (ls ++ [l]). unfold crun in *. rewrite fold_opt_app, E1. cbn [fold_opt]. rewrite E2. reflexivity. Qed.

Lemma begin_ok st dn eff i u f t r : DInv st dn eff -> (i < n)%nat -> th (d_c st) i = Idle -> d_todo st i = (u, f, t) :: r -> f <> t ->
  cstep H n mops (d_c st) (Begin i (mkMv u f t MAXW)) = Some (ubegin H (d_c st) i (mkMv u f t MAXW)).
Proof.
  intros I Hi Et Ed Ne. pose proof (i_base _ _ _ I) as B. cbn [cstep m_u m_from m_to]. rewrite Et.
  assert (Iu : In (u, f, t) (t_mv (T i))) by (rewrite (i_split _ _ _ I i Hi), Ed; apply in_or_app; right; apply in_or_app; right; left; reflexivity).
  destruct (HT i Hi) as (Hi1 & Hj1 & _ & V). destruct (V u f t Iu) as (Hu & _ & Hf & Ht).
  assert (Pu : part (sh (d_c st)) u = Some f) by (eapply i_todo; eauto; rewrite Ed; left; reflexivity).
  assert (Hfree : is_free n (d_c st) u = true).
  { unfold is_free. apply forallb_forall. intros j Hj. apply in_seq in Hj. rewrite node_of_mv. destruct (mv_of (th (d_c st) j)) as [m|] eqn:Em; [|reflexivity].
    apply negb_true_iff. apply Nat.eqb_neq. intros Eu. assert (j = i). { apply (same_task u j i ltac:(lia) Hi); [rewrite <- Eu; eapply nds_in; eapply cur_in; eauto; lia|eapply nds_in; exact Iu]. }
    subst j. rewrite Et in Em. discriminate Em. }
  replace (i <? n)%nat with true by (symmetry; apply Nat.ltb_lt; exact Hi). rewrite Hfree, (proj2 (in_block_true _ _ _) Pu).
  replace (Nat.eqb f t) with false by (symmetry; apply Nat.eqb_neq; exact Ne).
  replace (t <? pk (sh (d_c st)))%nat with true; [replace (mem u (nodes H)) with true by (symmetry; apply mem_In; exact Hu); reflexivity|].
  symmetry. apply Nat.ltb_lt. rewrite (b_k H k n _ _ B). unfold in_pair in Ht. apply orb_true_iff in Ht. destruct Ht as [Ht|Ht]; apply Nat.eqb_eq in Ht; subst; assumption.
Qed.

Lemma dstep_inv st dn eff l st' : DInv st dn eff -> dstep H o mops n st l = Some st' -> exists dn' eff', DInv st' dn' eff'.
Proof.
  intros I E. pose proof (i_base _ _ _ I) as B. destruct l as [i|i]; cbn [dstep] in E.
  - destruct (i <? n)%nat eqn:Hi; [|discriminate E]. apply Nat.ltb_lt in Hi. cbn [andb] in E. destruct (idleb (th (d_c st) i)) eqn:Eb; [|discriminate E].
    assert (Et : th (d_c st) i = Idle) by (destruct (th (d_c st) i); cbn in Eb; congruence). clear Eb.
    destruct (d_todo st i) as [|[[u f] t] r] eqn:Ed; [discriminate E|].
    assert (Iu : In (u, f, t) (t_mv (T i))) by (rewrite (i_split _ _ _ I i Hi), Ed; apply in_or_app; right; apply in_or_app; right; left; reflexivity).
    assert (Pu : part (sh (d_c st)) u = Some f) by (eapply i_todo; eauto; rewrite Ed; left; reflexivity).
    destruct (Nat.eqb_spec f t) as [<-|Ne]; injection E as <-.
    + exists (upd dn i (dn i ++ [(u, f, f)])), eff. constructor; cbn [d_c d_todo d_imp d_new].
      * exact B.
      * exact (i_run _ _ _ I).
      * intros j Hj. destruct (Nat.eq_dec j i) as [->|Nj]; [|rewrite !upd_other by exact Nj; exact (i_split _ _ _ I j Hj)].
        rewrite !upd_same, (i_split _ _ _ I i Hi), Ed. unfold cur. rewrite Et. cbn [mv_of app]. rewrite <- app_assoc. reflexivity.
      * exact (i_max _ _ _ I).
      * intros j v f' t' Hj Iv. destruct (Nat.eq_dec j i) as [->|Nj]; [|rewrite upd_other in Iv by exact Nj; exact (i_part _ _ _ I j v f' t' Hj Iv)].
        rewrite upd_same in Iv. apply in_app_or in Iv. destruct Iv as [Iv|[Iv|[]]]; [exact (i_part _ _ _ I i v f' t' Hi Iv)|]. injection Iv as <- <- <-. exact Pu.
      * intros j v f' t' Hj Iv. apply (i_todo _ _ _ I j v f' t' Hj). destruct (Nat.eq_dec j i) as [->|Nj]; [rewrite upd_same in Iv; rewrite Ed; right; exact Iv|rewrite upd_other in Iv by exact Nj; exact Iv].
      * exact (i_rest _ _ _ I).
      * intros j Hj. destruct (i_log _ _ _ I j Hj) as (hd & L1 & L2 & L3). exists hd. destruct (Nat.eq_dec j i) as [->|Nj]; [|rewrite !upd_other by exact Nj; auto].
        rewrite !upd_same. rewrite Et in *. cbn [mv_of] in *. split; [|split; [discriminate|discriminate]].
        rewrite L1, slog_app. cbn [slog]. rewrite Nat.eqb_refl. cbn [app]. rewrite !app_nil_r. reflexivity.
      * exact (i_pairs _ _ _ I).
      * exact (i_imp _ _ _ I).
      * exact (i_new _ _ _ I).
    + pose proof (begin_ok st dn eff i u f t r I Hi Et Ed Ne) as Cs. pose proof (step_base H k n mops WF _ _ _ _ B Cs) as B'. cbn [eff_next] in B'.
      exists dn, eff. constructor; cbn [d_c d_todo d_imp d_new].
      * exact B'.
      * destruct (i_run _ _ _ I) as (ls & R). eapply crun_snoc; eauto.
      * intros j Hj. cbn [ubegin set_th set_sh th]. destruct (Nat.eq_dec j i) as [->|Nj]; [|rewrite !upd_other by exact Nj; exact (i_split _ _ _ I j Hj)].
        rewrite !upd_same, (i_split _ _ _ I i Hi), Ed. unfold cur. rewrite Et. reflexivity.
      * intros j m Hj Em. cbn [ubegin set_th set_sh th] in *. destruct (Nat.eq_dec j i) as [->|Nj]; [|rewrite upd_other in * by exact Nj; exact (i_max _ _ _ I j m Hj Em)].
        rewrite upd_same in *. cbn [mv_of] in Em. injection Em as <-. split; [reflexivity|]. intros m' a Ea. injection Ea as _ <-.
        assert (X : wt (sh (ubegin H (d_c st) i (mkMv u f t MAXW))) t <= total_weight H).
        { eapply wt_total; [exact WF|exact Wn|exact B'|]. destruct (HT i Hi) as (Hi1 & Hj1 & _ & V). destruct (V u f t Iu) as (_ & _ & _ & Ht).
          unfold in_pair in Ht. apply orb_true_iff in Ht. destruct Ht as [Ht|Ht]; apply Nat.eqb_eq in Ht; subst; assumption. }
        exact (Z.le_trans _ _ _ X Wt).
      * exact (i_part _ _ _ I).
      * intros j v f' t' Hj Iv. apply (i_todo _ _ _ I j v f' t' Hj). destruct (Nat.eq_dec j i) as [->|Nj]; [rewrite upd_same in Iv; rewrite Ed; right; exact Iv|rewrite upd_other in Iv by exact Nj; exact Iv].
      * exact (i_rest _ _ _ I).
      * intros j Hj. destruct (i_log _ _ _ I j Hj) as (hd & L1 & L2 & L3). cbn [ubegin set_th set_sh th]. destruct (Nat.eq_dec j i) as [->|Nj]; [|exists hd; rewrite !upd_other by exact Nj; auto].
        rewrite !upd_same. rewrite Et in L1. cbn [mv_of] in L1. exists []. cbn [mv_of map]. split; [exact L1|]. split; [|discriminate]. intros m Em. injection Em as <-. reflexivity.
      * exact (i_pairs _ _ _ I).
      * exact (i_imp _ _ _ I).
      * exact (i_new _ _ _ I).
  - destruct (i <? n)%nat eqn:Hi; [|discriminate E]. assert (Hi' := Hi). apply Nat.ltb_lt in Hi.
    destruct (adv H mops (d_c st) i) as [c'|] eqn:Ea; [|discriminate E].
    assert (Cs : cstep H n mops (d_c st) (Adv i) = Some c') by (cbn [cstep]; rewrite Hi'; exact Ea).
    pose proof (step_base H k n mops WF _ _ _ _ B Cs) as B'.
    destruct (mv_of (th (d_c st) i)) as [m|] eqn:Em; [|exfalso; unfold adv in Ea; destruct (th (d_c st) i); cbn in Em; discriminate].
    destruct (adv_facts H n mops k _ _ i m c' B Hi Em Ea) as (t & Eth & Po & Fr).
    pose proof (adv_log H mops _ _ _ Ea) as Lg. rewrite Eth, upd_same in Lg.
    pose proof (cur_in st dn eff i m I Hi Em) as Im. destruct (HT i Hi) as (Hi1 & Hj1 & ND & V). destruct (V _ _ _ Im) as (Hu & P0u & Hf & Ht).
    destruct (b_mv H k n _ _ B i m Hi Em) as (_ & Nft & _).
    destruct (i_max _ _ _ I i m Hi Em) as [Mx1 Mx2].
    assert (Lk : forall j, (j < n)%nat -> j <> i -> tlog c' j = tlog (d_c st) j).
    { intros j Hj Nj. unfold tlog. destruct Lg as [(m1 & rem & su & Ei & El & _)|(El & _)]; rewrite El; [|reflexivity]. cbn [rev]. rewrite filter_app. cbn [filter].
      destruct (i_log _ _ _ I i Hi) as (hd & _ & _ & L3). specialize (L3 _ _ _ Ei). rewrite Ei in Em. cbn in Em. injection Em as ->.
      replace (in_pair (T j) (su_from su)) with false; [apply app_nil_r|]. symmetry. apply not_true_is_false. intros X. rewrite L3 in X. cbn in X. apply Nj. apply (HD j i _ Hj Hi X Hf). }
    pose proof (disj3 i _ _ _ Hi (i_split _ _ _ I i Hi) (m_u m)) as (D1 & _ & D3). unfold cur in D1, D3. rewrite Em in D1, D3.
    assert (Nu : forall j v f' t', (j < n)%nat -> In (v, f', t') (dn j) \/ In (v, f', t') (d_todo st j) -> v <> m_u m).
    { intros j v f' t' Hj Iv ->. assert (j = i). { apply (same_task (m_u m) j i Hj Hi); [rewrite (i_split _ _ _ I j Hj), !map_app; apply in_or_app; destruct Iv as [Iv|Iv]; [left|right; apply in_or_app; right]; eapply nds_in; exact Iv|eapply nds_in; exact Im]. }
      subst j. destruct Iv as [Iv|Iv]; apply nds_in in Iv; [apply (D1 Iv)|apply (D3 ltac:(left; reflexivity) Iv)]. left. reflexivity. }
    set (imn := match th (d_c st) i with Incd _ _ su => (upd (d_imp st) i (d_imp st i - gain_of o su), if su_to_after su =? 1 then d_new st ++ [(su_he su, su_to su)] else d_new st) | _ => (d_imp st, d_new st) end) in *.
    assert (Himp : (forall j, (j < n)%nat -> fst imn j = - sumZ (gain_of o) (tlog c' j)) /\ snd imn = map (fun su => (su_he su, su_to su)) (filter (fun su => su_to_after su =? 1) (rev (log c'))) /\
                   (forall su, In su (log c') -> exists j, (j < n)%nat /\ in_pair (T j) (su_from su) = true /\ in_pair (T j) (su_to su) = true)).
    { destruct Lg as [(m1 & rem & su & Ei & El & _)|(El & Ni & _)].
      - unfold imn. rewrite Ei. cbn [fst snd]. destruct (i_log _ _ _ I i Hi) as (hd & _ & _ & L3). specialize (L3 _ _ _ Ei). rewrite Ei in Em. cbn in Em. injection Em as ->.
        assert (Fi : in_pair (T i) (su_from su) = true) by (rewrite L3; exact Hf). split; [|split].
        + intros j Hj. destruct (Nat.eq_dec j i) as [->|Nj]; [|rewrite upd_other, Lk by assumption; exact (i_imp _ _ _ I j Hj)].
          rewrite upd_same, (i_imp _ _ _ I i Hi). unfold tlog. rewrite El. cbn [rev]. rewrite filter_app, sumZ_app. cbn [filter]. rewrite Fi. cbn [sumZ]. lia.
        + rewrite El. cbn [rev]. rewrite filter_app, map_app, <- (i_new _ _ _ I). cbn [filter]. destruct (su_to_after su =? 1); [reflexivity|]. cbn [map]. rewrite app_nil_r. reflexivity.
        + intros su' X. rewrite El in X. destruct X as [<-|X]; [|exact (i_pairs _ _ _ I _ X)]. exists i. split; [exact Hi|]. split; [exact Fi|]. rewrite L3. exact Ht.
      - assert (Ei : imn = (d_imp st, d_new st)) by (unfold imn; destruct (th (d_c st) i) eqn:Ex; try reflexivity; exfalso; eapply Ni; reflexivity).
        rewrite Ei. cbn [fst snd]. split; [|split].
        + intros j Hj. unfold tlog. rewrite El. exact (i_imp _ _ _ I j Hj).
        + rewrite El. exact (i_new _ _ _ I).
        + rewrite El. exact (i_pairs _ _ _ I). }
    destruct imn as [imp' new'] eqn:Eimn. cbn [fst snd] in Himp. destruct Himp as (Him & Hnw & Hpr). injection E as <-.
    assert (R' : exists ls, crun H n mops (cinit s0 c0) ls = Some c') by (destruct (i_run _ _ _ I) as (ls & R); eapply crun_snoc; eauto).
    destruct Fr as [(Mt & _ & Nt & Na)|(-> & b & _ & Pu & Rj)].
    + (* the call goes on *)
      exists dn, (eff_next (d_c st) (Adv i) eff). constructor; cbn [d_c d_todo d_imp d_new].
      * exact B'.
      * exact R'.
      * intros j Hj. rewrite Eth. destruct (Nat.eq_dec j i) as [->|Nj]; [|rewrite upd_other by exact Nj; exact (i_split _ _ _ I j Hj)].
        rewrite upd_same, (i_split _ _ _ I i Hi). unfold cur. rewrite Em, Mt. reflexivity.
      * intros j m' Hj Em'. rewrite Eth in *. destruct (Nat.eq_dec j i) as [->|Nj]; [|rewrite upd_other in * by exact Nj; exact (i_max _ _ _ I j m' Hj Em')].
        rewrite upd_same in *. assert (m' = m) by congruence. subst m'. split; [exact Mx1|]. intros m' a Ex. exfalso. rewrite Ex in Mt. cbn in Mt. injection Mt as ->. apply (Na a Ex).
      * intros j v f' t' Hj Iv. rewrite Po by (eapply Nu; eauto). exact (i_part _ _ _ I j v f' t' Hj Iv).
      * intros j v f' t' Hj Iv. rewrite Po by (eapply Nu; eauto). exact (i_todo _ _ _ I j v f' t' Hj Iv).
      * intros v Nv. rewrite Po; [exact (i_rest _ _ _ I v Nv)|]. intros ->. apply (Nv i Hi). eapply nds_in; exact Im.
      * intros j Hj. destruct (i_log _ _ _ I j Hj) as (hd & L1 & L2 & L3). rewrite Eth. destruct (Nat.eq_dec j i) as [->|Nj]; [|exists hd; rewrite upd_other, Lk by assumption; auto].
        rewrite upd_same, Mt. rewrite Em in L1. specialize (L2 m Em).
        destruct Lg as [(m1 & rem & su & Ei & El & Er & Nic)|(El & Ni & [(_ & Er & Ic)|(X & _)])]; [| |congruence].
        -- exists (hd ++ [su_he su]). rewrite Ei in Em. cbn in Em. injection Em as ->. specialize (L3 _ _ _ Ei). split; [|split].
           ++ unfold tlog. rewrite El. cbn [rev]. rewrite filter_app. cbn [filter]. replace (in_pair (T i) (su_from su)) with true by (rewrite L3; symmetry; exact Hf).
              fold (tlog (d_c st) i). rewrite L1, map_app, <- app_assoc. cbn [map]. rewrite <- L3. reflexivity.
           ++ intros m' X. injection X as <-. rewrite L2, Ei, Er. cbn [remn]. rewrite <- app_assoc. reflexivity.
           ++ intros m' r s X. exfalso. exact (Nic _ _ _ X).
        -- exists hd. split; [unfold tlog; rewrite El; exact L1|]. split; [intros m' X; injection X as <-; rewrite Er; exact L2|].
           intros m' r su X. destruct (Ic m' r su X) as (fa & Ei & Esu). rewrite Ei in Em. cbn in Em. injection Em as ->.
           assert (Em' : mv_of (th (d_c st) i) = Some m) by (rewrite Ei; reflexivity).
           destruct (inc_facts H k n mops WF _ _ i m _ _ _ B Hi Ei) as (F1 & F2 & F3 & F4 & F5 & F6 & F7 & F8 & F9).
           assert (Ip : In (su_he su) (pend H (th (d_c st) i))) by (rewrite Ei; left; reflexivity).
           rewrite (view_count st dn eff i m _ _ I Hi Em' Ip F1 Hf) in F8. rewrite (view_count st dn eff i m _ _ I Hi Em' Ip F1 Ht) in F9.
           rewrite F8, F9 in Esu. exact Esu.
      * exact Hpr.
      * exact Him.
      * exact Hnw.
    + (* the call returns *)
      assert (b = true) as ->. { destruct b; [reflexivity|]. destruct (Rj eq_refl) as (a & Ea' & Lt). specialize (Mx2 _ _ Ea'). lia. }
      exists (upd dn i (dn i ++ [(m_u m, m_from m, m_to m)])), (eff_next (d_c st) (Adv i) eff). constructor; cbn [d_c d_todo d_imp d_new].
      * exact B'.
      * exact R'.
      * intros j Hj. rewrite Eth. destruct (Nat.eq_dec j i) as [->|Nj]; [|rewrite !upd_other by exact Nj; exact (i_split _ _ _ I j Hj)].
        rewrite !upd_same, (i_split _ _ _ I i Hi). unfold cur. rewrite Em. cbn [mv_of app]. rewrite <- app_assoc. reflexivity.
      * intros j m' Hj Em'. rewrite Eth in *. destruct (Nat.eq_dec j i) as [->|Nj]; [|rewrite upd_other in * by exact Nj; exact (i_max _ _ _ I j m' Hj Em')].
        rewrite upd_same in *. discriminate Em'.
      * intros j v f' t' Hj Iv. destruct (Nat.eq_dec j i) as [->|Nj]; [|rewrite upd_other in Iv by exact Nj; rewrite Po by (eapply Nu; eauto); exact (i_part _ _ _ I j v f' t' Hj Iv)].
        rewrite upd_same in Iv. apply in_app_or in Iv. destruct Iv as [Iv|[Iv|[]]]; [rewrite Po by (eapply Nu; eauto); exact (i_part _ _ _ I i v f' t' Hi Iv)|].
        injection Iv as <- <- <-. exact Pu.
      * intros j v f' t' Hj Iv. rewrite Po by (eapply Nu; eauto). exact (i_todo _ _ _ I j v f' t' Hj Iv).
      * intros v Nv. rewrite Po; [exact (i_rest _ _ _ I v Nv)|]. intros ->. apply (Nv i Hi). eapply nds_in; exact Im.
      * intros j Hj. destruct (i_log _ _ _ I j Hj) as (hd & L1 & L2 & L3). rewrite Eth. destruct (Nat.eq_dec j i) as [->|Nj]; [|exists hd; rewrite !upd_other, Lk by assumption; auto].
        rewrite !upd_same. rewrite Em in L1. specialize (L2 m Em). cbn [mv_of].
        destruct Lg as [(m1 & rem & su & Ei & El & Er & Nic)|(El & Ni & [(X & _)|(_ & [(m1 & Ei)|(m1 & a & Ei & Lt)])])]; [| congruence| |].
        -- exfalso. unfold adv in Ea. rewrite Ei in Ea. injection Ea as <-. cbn in Eth. apply (f_equal (fun g => g i)) in Eth. rewrite !upd_same in Eth. discriminate Eth.
        -- exists hd. split; [|split; discriminate]. rewrite Ei in L2. cbn [remn] in L2. rewrite app_nil_r in L2.
           unfold tlog. rewrite El. fold (tlog (d_c st) i). rewrite L1, slog_app. cbn [slog app]. rewrite !app_nil_r.
           replace (Nat.eqb (m_from m) (m_to m)) with false by (symmetry; apply Nat.eqb_neq; exact Nft). f_equal. unfold sus_of. rewrite L2. reflexivity.
        -- exfalso. specialize (Mx2 _ _ Ei). rewrite Ei in Em. cbn in Em. injection Em as ->. lia.
      * exact Hpr.
      * exact Him.
      * exact Hnw.
Qed.
End Inv.
