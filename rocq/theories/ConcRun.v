(** ConcRun.v - whole concurrent executions: from a consistent state, any number of threads, any schedule. *)
From Verif Require Import Base Spec SpecLemmas PHG PHGProofs Objective GainCache GainCacheProofs Conc ConcProofs ConcMore.

Section Run.
Variables (H : hypergraph) (n : nat) (mops : hypergraph -> sync_update -> list mop).
Hypothesis WF : wf_hg H.

Lemma base_init s c : consistent H s -> complete H (part s) (pk s) -> Base H (pk s) n (cinit s c) (fun _ => part s).
Proof.
  intros C HC. constructor; simpl; try discriminate; try (intros; discriminate).
  - reflexivity.
  - apply C.
  - exact HC.
  - intros; exact I.
  - intros; reflexivity.
  - intros e b He Hb. rewrite sumZ_zero by reflexivity. rewrite (c_pc H s C e b He Hb). lia.
  - intros e b He Hb. apply (c_cs H s C e b He Hb).
  - intros b Hb. rewrite sumZ_zero by reflexivity. rewrite (c_wt H s C b Hb). lia.
Qed.

Lemma run_base k l : forall st eff st', Base H k n st eff -> crun H n mops st l = Some st' -> exists eff', Base H k n st' eff'.
Proof.
  unfold crun. induction l as [|a l IH]; intros st eff st' B E; simpl in E.
  - injection E as <-. eauto.
  - destruct (cstep H n mops st a) as [st1|] eqn:E1; [|discriminate]. eapply IH; [|exact E]. eapply step_base; eauto.
Qed.

Lemma quiescent_view k st eff e : Base H k n st eff -> quiescent n st -> In e (edges H) ->
  forall v, In v (pins H e) -> eff e v = part (sh st) v.
Proof.
  intros B Q He v Hv. apply (b_eff2 H k n st eff B e v He Hv). intros i m Hi Em. rewrite (Q i Hi) in Em. discriminate.
Qed.

Lemma quiescent_consistent k st eff : Base H k n st eff -> quiescent n st -> consistent H (sh st).
Proof.
  intros B Q. pose proof (b_k H k n st eff B) as Ek. constructor.
  - rewrite Ek. apply (b_part H k n st eff B).
  - rewrite Ek. intros b Hb. rewrite (b_wt H k n st eff B b Hb), sumZ_zero; [lia|].
    intros i Hi. apply in_seq in Hi. rewrite (Q i) by lia. reflexivity.
  - rewrite Ek. intros e b He Hb. rewrite (b_pc H k n st eff B e b He Hb), sumZ_zero.
    + rewrite (pin_count_ext H (eff e) (part (sh st)) e b); [lia|]. intros v Hv. eapply quiescent_view; eauto.
    + intros i Hi. apply in_seq in Hi. rewrite (Q i) by lia. reflexivity.
  - rewrite Ek. intros e b He Hb. apply (b_cs H k n st eff B e b He Hb).
Qed.

(** Quiescent consistency and linearization: the final block ids are the replay of the reported results. *)
Theorem conc_quiescent s c l st : consistent H s -> complete H (part s) (pk s) ->
  crun H n mops (cinit s c) l = Some st -> quiescent n st ->
  pk (sh st) = pk s /\ consistent H (sh st) /\ complete H (part (sh st)) (pk s) /\ forall v, part (sh st) v = replay (part s) (rep st) v.
Proof.
  intros C HC E Q.
  assert (X : forall l st0 eff, Base H (pk s) n st0 eff -> ReplayInv n (part s) st0 -> crun H n mops st0 l = Some st ->
            exists eff', Base H (pk s) n st eff' /\ ReplayInv n (part s) st).
  { clear E. unfold crun. induction l0 as [|a l0 IH]; intros st0 eff B R E; simpl in E.
    - injection E as <-. eauto.
    - destruct (cstep H n mops st0 a) as [st1|] eqn:E1; [|discriminate]. eapply IH; [| |exact E].
      + eapply step_base; eauto.
      + eapply replay_step; eauto. }
  destruct (X l (cinit s c) (fun _ => part s) (base_init s c C HC)) as (eff & B & R); [intros v _; reflexivity|exact E|].
  split; [exact (b_k H _ n st eff B)|]. split; [eapply quiescent_consistent; eauto|]. split; [exact (b_complete H _ n st eff B)|].
  intros v. apply R. intros (i & m & Hi & Em & _). rewrite (Q i Hi) in Em. discriminate.
Qed.

(** Balance at every reachable state. *)
Theorem conc_balance s c l st (L : nat -> Z) : consistent H s -> complete H (part s) (pk s) ->
  (forall v, In v (nodes H) -> 0 <= nw H v) -> Forall (label_ok L) l ->
  crun H n mops (cinit s c) l = Some st ->
  forall b, (b < pk s)%nat -> block_weight H (part (sh st)) b <= Z.max (L b) (block_weight H (part s) b).
Proof.
  intros C HC Hw Hl E.
  assert (X : forall l st0 eff, Forall (label_ok L) l -> Base H (pk s) n st0 eff -> BalInv H (pk s) n L (part s) st0 -> crun H n mops st0 l = Some st ->
            exists eff', Base H (pk s) n st eff' /\ BalInv H (pk s) n L (part s) st).
  { clear E l Hl. unfold crun. induction l as [|a l0 IH]; intros st0 eff Hl B R E; simpl in E.
    - injection E as <-. eauto.
    - inversion Hl; subst. destruct (cstep H n mops st0 a) as [st1|] eqn:E1; [|discriminate]. eapply IH; [assumption| | |exact E].
      + eapply step_base; eauto.
      + eapply bal_step; eauto. }
  destruct (X l (cinit s c) (fun _ => part s) Hl (base_init s c C HC)) as (eff & B & R1 & R2).
  - split; [simpl; discriminate|]. intros b Hb. simpl. rewrite sumZ_zero by reflexivity. lia.
  - exact E.
  - intros b Hb. specialize (R2 b Hb).
    assert (0 <= sumZ (fun i => committed H (th st i) b) (seq 0 n)); [|lia].
    apply sumZ_nonneg. intros i Hi. apply in_seq in Hi.
    destruct (th st i) as [|m a| | | | | |] eqn:Ei; simpl; try lia.
    assert (Em : mv_of (th st i) = Some m) by (rewrite Ei; reflexivity).
    destruct (b_mv H _ n st eff B i m ltac:(lia) Em) as (M & _). specialize (Hw _ M). destruct (_ && _); lia.
Qed.

(** Attributed gains at quiescence. *)
Section Gains.
Variables (g : sync_update -> Z) (f : hypergraph -> partition -> nat -> Z).
Hypothesis Hg : forall k P u from to e,
  NoDup (pins H e) -> In u (pins H e) -> P u = Some from -> from <> to -> (to < k)%nat -> pins_assigned H P k e ->
  g (mkSync e from to (ew H e) (esize H e) (pin_count H P e from - 1) (pin_count H P e to + 1)) = f H (move P u to) e - f H P e.
Hypothesis Hext : forall P Q e, (forall v, In v (pins H e) -> P v = Q v) -> f H P e = f H Q e.

Theorem conc_gains s c l st : consistent H s -> complete H (part s) (pk s) ->
  crun H n mops (cinit s c) l = Some st -> quiescent n st ->
  sumZ g (log st) = sumZ (f H (part (sh st))) (edges H) - sumZ (f H (part s)) (edges H).
Proof.
  intros C HC E Q.
  assert (X : forall l st0 eff, Base H (pk s) n st0 eff -> GainInv H n g f (part s) st0 eff -> crun H n mops st0 l = Some st ->
            exists eff', Base H (pk s) n st eff' /\ GainInv H n g f (part s) st eff').
  { clear E. unfold crun. induction l0 as [|a l0 IH]; intros st0 eff B R E; simpl in E.
    - injection E as <-. eauto.
    - destruct (cstep H n mops st0 a) as [st1|] eqn:E1; [|discriminate]. eapply IH; [| |exact E].
      + eapply step_base; eauto.
      + eapply gain_step; eauto; intros; eapply Hg; eauto. }
  destruct (X l (cinit s c) (fun _ => part s) (base_init s c C HC)) as (eff & B & R).
  - unfold GainInv. simpl. rewrite sumZ_zero by reflexivity. change (fun e => f H (part s) e) with (f H (part s)). lia.
  - exact E.
  - unfold GainInv in R. rewrite (sumZ_zero (fun i => pgain g (th st i))) in R.
    + rewrite Z.add_0_r in R. rewrite R. f_equal. apply sumZ_ext. intros e He. apply Hext. eapply quiescent_view; eauto.
    + intros i Hi. apply in_seq in Hi. rewrite (Q i) by lia. reflexivity.
Qed.
End Gains.

(** Gain cache at quiescence. *)
Section Cache.
Variables (pt bt : Z -> Z -> Z) (all : bool).
Hypothesis Hben : forall k P u from to e v b,
  NoDup (pins H e) -> In u (pins H e) -> P u = Some from -> from <> to -> (to < k)%nat -> pins_assigned H P k e ->
  sumZ (fun o => op_ben o v b) (mops H (mkSync e from to (ew H e) (esize H e) (pin_count H P e from - 1) (pin_count H P e to + 1))) =
  if mem v (pins H e) then ew H e * (bt (esize H e) (pin_count H (move P u to) e b) - bt (esize H e) (pin_count H P e b)) else 0.
Hypothesis Hpen : forall k P Q u from to e v,
  NoDup (pins H e) -> In u (pins H e) -> P u = Some from -> from <> to -> (to < k)%nat -> pins_assigned H P k e ->
  In v (pins H e) -> (v <> u /\ Q v = P v \/ all = true) ->
  sumZ (fun o => op_pen Q o v) (mops H (mkSync e from to (ew H e) (esize H e) (pin_count H P e from - 1) (pin_count H P e to + 1))) =
  ew H e * (pt (esize H e) (pin_count H (move P u to) e (blk (move P u to) v)) - pt (esize H e) (pin_count H P e (blk P v))).
Hypothesis Hpen0 : forall Q su v, ~ In v (pins H (su_he su)) -> sumZ (fun o => op_pen Q o v) (mops H su) = 0.
Hypothesis Hall : all = true -> forall su o, In o (mops H su) -> match o with MCondPen _ _ _ => False | _ => True end.

Theorem conc_cache s c l st : consistent H s -> complete H (part s) (pk s) -> cache_ok pt bt all H (pk s) (part s) c [] ->
  crun H n mops (cinit s c) l = Some st -> quiescent n st ->
  cache_ok pt bt all H (pk s) (part (sh st)) (gc st) (map (fun x => m_u (fst x)) (filter snd (rep st))).
Proof.
  intros C HC [CB CP] E Q.
  assert (X : forall l st0 eff, Base H (pk s) n st0 eff -> ReplayInv n (part s) st0 ->
            BenInv H (pk s) n mops bt st0 eff -> PenInv H n mops pt all (part s) st0 eff -> crun H n mops st0 l = Some st ->
            exists eff', Base H (pk s) n st eff' /\ BenInv H (pk s) n mops bt st eff' /\ PenInv H n mops pt all (part s) st eff').
  { clear E. unfold crun. induction l0 as [|a l0 IH]; intros st0 eff B R RB RP E; simpl in E.
    - injection E as <-. eauto.
    - destruct (cstep H n mops st0 a) as [st1|] eqn:E1; [|discriminate]. eapply IH; [| | | |exact E].
      + eapply step_base; eauto.
      + eapply replay_step; eauto.
      + eapply ben_step; eauto; intros; eapply Hben; eauto.
      + eapply pen_step; eauto; intros; eapply Hpen; eauto. }
  destruct (X l (cinit s c) (fun _ => part s) (base_init s c C HC)) as (eff & B & RB & RP1 & RP).
  - intros v _. reflexivity.
  - intros v b Hv Hb. simpl. rewrite sumZ_zero by reflexivity. rewrite (CB v b Hv Hb). unfold ben_of. lia.
  - split; [simpl; discriminate|]. intros v Hv _. simpl. rewrite sumZ_zero by reflexivity.
    rewrite (CP v Hv); [unfold pen_of; lia|]. left. intros [].
  - exact E.
  - assert (Hz : forall F : tst -> Z, F Idle = 0 -> sumZ (fun i => F (th st i)) (seq 0 n) = 0).
    { intros F HF. apply sumZ_zero. intros i Hi. apply in_seq in Hi. rewrite (Q i) by lia. exact HF. }
    assert (Hview : forall v e, In v (nodes H) -> In e (inc H v) -> In e (edges H) /\ In v (pins H e) /\
              (forall b, pin_count H (eff e) e b = pin_count H (part (sh st)) e b) /\ eff e v = part (sh st) v).
    { intros v e Hv He. apply (wf_inc H WF v e Hv) in He. destruct He as [He Hp]. repeat split; auto.
      - intros b. apply pin_count_ext. eapply quiescent_view; eauto.
      - eapply quiescent_view; eauto. }
    split.
    + intros v b Hv Hb. specialize (RB v b Hv Hb). rewrite (Hz (fun t => pben H mops t v b)) in RB by reflexivity.
      rewrite Z.add_0_r in RB. rewrite RB. unfold ben_of. apply sumZ_ext. intros e He.
      destruct (Hview v e Hv He) as (_ & _ & E1 & _). rewrite E1. reflexivity.
    + intros v Hv Hd. assert (U : untouched n st v \/ all = true).
      { destruct Hd as [Hd|Hd]; [left|tauto]. split.
        - intros (i & m & Hi & Em & _). rewrite (Q i Hi) in Em. discriminate.
        - intros m Hm Hu. apply Hd. apply in_map_iff. exists (m, true). split; [exact Hu|]. apply filter_In. tauto. }
      specialize (RP v Hv U). rewrite (Hz (fun t => ppen H mops (part s) t v)) in RP by reflexivity.
      rewrite Z.add_0_r in RP. rewrite RP. unfold pen_of. apply sumZ_ext. intros e He.
      destruct (Hview v e Hv He) as (_ & _ & E1 & E2). rewrite E1. unfold blk. rewrite E2. reflexivity.
Qed.
End Cache.
End Run.

(** ---------- instances ---------- *)
Lemma km1_edge_gain H k P u from to e :
  NoDup (pins H e) -> In u (pins H e) -> P u = Some from -> from <> to -> (to < k)%nat -> pins_assigned H P k e ->
  km1_gain_of (mkSync e from to (ew H e) (esize H e) (pin_count H P e from - 1) (pin_count H P e to + 1)) = km1_edge H (move P u to) e - km1_edge H P e.
Proof.
  intros A B C D F G. rewrite (km1_edge_move H k P u from to e A B C D F G). unfold km1_gain_of. simpl.
  destruct (Z.eqb_spec (pin_count H P e to + 1) 1), (Z.eqb_spec (pin_count H P e from - 1) 0),
    (Z.eqb_spec (pin_count H P e to) 0), (Z.eqb_spec (pin_count H P e from) 1); simpl; lia.
Qed.
Lemma cut_edge_gain H k P u from to e :
  NoDup (pins H e) -> In u (pins H e) -> P u = Some from -> from <> to -> (to < k)%nat -> pins_assigned H P k e ->
  cut_gain_of (mkSync e from to (ew H e) (esize H e) (pin_count H P e from - 1) (pin_count H P e to + 1)) = cut_edge H (move P u to) e - cut_edge H P e.
Proof.
  intros A B C D F G. rewrite (cut_edge_move H k P u from to e A B C D F G). unfold cut_gain_of. simpl.
  assert (X1 : 0 < pin_count H P e from) by (apply pin_count_pos_iff; exists u; tauto). pose proof (pin_count_nonneg H P e to).
  pose proof (two_pin_counts H P e from to D).
  destruct (Z.ltb_spec 1 (esize H e)), (Z.eqb_spec (pin_count H P e from - 1) (esize H e - 1)), (Z.eqb_spec (pin_count H P e to + 1) (esize H e)),
    (Z.eqb_spec (pin_count H P e from) (esize H e)); cbn [Z.b2z]; lia.
Qed.
Lemma soed_edge_gain H k P u from to e :
  NoDup (pins H e) -> In u (pins H e) -> P u = Some from -> from <> to -> (to < k)%nat -> pins_assigned H P k e ->
  soed_gain_of (mkSync e from to (ew H e) (esize H e) (pin_count H P e from - 1) (pin_count H P e to + 1)) = soed_edge H (move P u to) e - soed_edge H P e.
Proof.
  intros A B C D F G.
  assert (Hne : pins H e <> []) by (intros X; rewrite X in B; destruct B).
  rewrite (soed_edge_split H P k e G Hne).
  rewrite (soed_edge_split H (move P u to) k e (pins_assigned_move H P k e u to G F) Hne).
  pose proof (km1_edge_gain H k P u from to e A B C D F G) as K. pose proof (cut_edge_gain H k P u from to e A B C D F G) as K2.
  replace (km1_edge H (move P u to) e + cut_edge H (move P u to) e - (km1_edge H P e + cut_edge H P e)) with
    ((km1_edge H (move P u to) e - km1_edge H P e) + (cut_edge H (move P u to) e - cut_edge H P e)) by lia.
  rewrite <- K, <- K2. unfold soed_gain_of, km1_gain_of, cut_gain_of. cbv zeta.
  cbn [su_he su_from su_to su_weight su_size su_from_after su_to_after].
  assert (X1 : 0 < pin_count H P e from) by (apply pin_count_pos_iff; exists u; tauto). pose proof (pin_count_nonneg H P e to).
  pose proof (two_pin_counts H P e from to D). pose proof (pin_count_le_size H P e from).
  destruct (Z.ltb_spec 1 (esize H e)), (Z.eqb_spec (pin_count H P e from - 1) (esize H e - 1)), (Z.eqb_spec (pin_count H P e to + 1) (esize H e)),
    (Z.eqb_spec (pin_count H P e from - 1) 0), (Z.eqb_spec (pin_count H P e to + 1) 1); cbn [Z.b2z]; lia.
Qed.

Lemma km1_edge_ext H P Q e : (forall v, In v (pins H e) -> P v = Q v) -> km1_edge H P e = km1_edge H Q e.
Proof. intros E. unfold km1_edge. rewrite (connectivity_ext H P Q e E). reflexivity. Qed.
Lemma cut_edge_ext H P Q e : (forall v, In v (pins H e) -> P v = Q v) -> cut_edge H P e = cut_edge H Q e.
Proof. intros E. unfold cut_edge. rewrite (connectivity_ext H P Q e E). reflexivity. Qed.
Lemma soed_edge_ext H P Q e : (forall v, In v (pins H e) -> P v = Q v) -> soed_edge H P e = soed_edge H Q e.
Proof. intros E. unfold soed_edge. rewrite (connectivity_ext H P Q e E). reflexivity. Qed.

(** Effects of the micro operation lists. *)
Lemma sum_ben_map l b0 x v b : NoDup l ->
  sumZ (fun o => op_ben o v b) (map (fun a => MBen a b0 x) l) = if mem v l && Nat.eqb b b0 then x else 0.
Proof.
  intros Hnd. rewrite sumZ_map. simpl.
  rewrite (sumZ_ext _ (fun a => if Nat.eqb a v then (if Nat.eqb b b0 then x else 0) else 0)).
  - rewrite (sumZ_indicator l v (fun _ => if Nat.eqb b b0 then x else 0) Hnd). destruct (mem v l), (Nat.eqb b b0); reflexivity.
  - intros a _. rewrite (Nat.eqb_sym v a). destruct (Nat.eqb a v), (Nat.eqb b b0); reflexivity.
Qed.
Lemma sum_pen_cond Q l b0 x v : NoDup l ->
  sumZ (fun o => op_pen Q o v) (map (fun a => MCondPen a b0 x) l) = if mem v l && in_block Q b0 v then x else 0.
Proof.
  intros Hnd. rewrite sumZ_map. simpl.
  rewrite (sumZ_ext _ (fun a => if Nat.eqb a v then (if in_block Q b0 v then x else 0) else 0)).
  - rewrite (sumZ_indicator l v (fun _ => if in_block Q b0 v then x else 0) Hnd). destruct (mem v l), (in_block Q b0 v); reflexivity.
  - intros a _. rewrite (Nat.eqb_sym v a). destruct (Nat.eqb a v), (in_block Q b0 v); reflexivity.
Qed.
Lemma sum_ben_cond l b0 x v b : sumZ (fun o => op_ben o v b) (map (fun a => MCondPen a b0 x) l) = 0.
Proof. rewrite sumZ_map. apply sumZ_zero. reflexivity. Qed.
Lemma sum_pen_ben Q l b0 x v : sumZ (fun o => op_pen Q o v) (map (fun a => MBen a b0 x) l) = 0.
Proof. rewrite sumZ_map. apply sumZ_zero. reflexivity. Qed.
Lemma sum_ben_both l b0 x y v b : NoDup l ->
  sumZ (fun o => op_ben o v b) (flat_map (fun a => [MPen a x; MBen a b0 y]) l) = if mem v l && Nat.eqb b b0 then y else 0.
Proof.
  intros Hnd. rewrite sumZ_flat_map. simpl. rewrite <- (sum_ben_map l b0 y v b Hnd), sumZ_map. apply sumZ_ext. intros; simpl; lia.
Qed.
Lemma sum_pen_both Q l b0 x y v : NoDup l ->
  sumZ (fun o => op_pen Q o v) (flat_map (fun a => [MPen a x; MBen a b0 y]) l) = if mem v l then x else 0.
Proof.
  intros Hnd. rewrite sumZ_flat_map. simpl.
  rewrite (sumZ_ext _ (fun a => if Nat.eqb a v then x else 0)).
  - apply (sumZ_indicator l v (fun _ => x) Hnd).
  - intros a _. rewrite (Nat.eqb_sym v a). destruct (Nat.eqb a v); lia.
Qed.

Lemma km1_mops_ben H su v b : NoDup (pins H (su_he su)) ->
  sumZ (fun o => op_ben o v b) (km1_mops H su) = if mem v (pins H (su_he su)) then km1_dben su b else 0.
Proof.
  intros Hnd. unfold km1_mops, km1_dben. cbv zeta. rewrite sumZ_app.
  destruct (Z.eqb_spec (su_from_after su) 1) as [E|E]; [rewrite E|destruct (su_from_after su =? 0)];
  (destruct (Z.eqb_spec (su_to_after su) 1) as [F|F]; [|destruct (Z.eqb_spec (su_to_after su) 2) as [F2|F2]]);
  rewrite ?sum_ben_cond, ?(sum_ben_map _ _ _ _ _ Hnd); simpl;
  destruct (mem v (pins H (su_he su))); simpl; try reflexivity; lia.
Qed.
Lemma km1_mops_pen Q H su v : NoDup (pins H (su_he su)) ->
  sumZ (fun o => op_pen Q o v) (km1_mops H su) = if mem v (pins H (su_he su)) then km1_dpen Q su v else 0.
Proof.
  intros Hnd. unfold km1_mops, km1_dpen. cbv zeta. rewrite sumZ_app.
  destruct (Z.eqb_spec (su_from_after su) 1) as [E|E]; [|destruct (su_from_after su =? 0)];
  (destruct (Z.eqb_spec (su_to_after su) 1) as [F|F]; [rewrite F|destruct (Z.eqb_spec (su_to_after su) 2) as [F2|F2]]);
  rewrite ?sum_pen_ben, ?(sum_pen_cond _ _ _ _ _ Hnd); simpl;
  destruct (mem v (pins H (su_he su))); simpl; try reflexivity; lia.
Qed.
Lemma cut_part_mops_ben H su v b : NoDup (pins H (su_he su)) -> su_from su <> su_to su ->
  sumZ (fun o => op_ben o v b) (cut_part_mops H su) = if mem v (pins H (su_he su)) then cut_dben su b else 0.
Proof.
  intros Hnd Hft. unfold cut_part_mops, cut_dben. cbv zeta. rewrite sumZ_app.
  destruct (su_from_after su =? su_size su - 1); [|destruct (su_from_after su =? su_size su - 2)];
  (destruct (su_to_after su =? su_size su); [|destruct (su_to_after su =? su_size su - 1)]);
  rewrite ?(sum_ben_map _ _ _ _ _ Hnd), ?(sum_ben_both _ _ _ _ _ _ Hnd); simpl;
  destruct (mem v (pins H (su_he su))); simpl; try reflexivity;
  destruct (Nat.eqb_spec b (su_from su)), (Nat.eqb_spec b (su_to su)); try lia.
Qed.
Lemma cut_part_mops_pen Q H su v : NoDup (pins H (su_he su)) ->
  sumZ (fun o => op_pen Q o v) (cut_part_mops H su) = if mem v (pins H (su_he su)) then cut_dpen su else 0.
Proof.
  intros Hnd. unfold cut_part_mops, cut_dpen. cbv zeta. rewrite sumZ_app.
  destruct (su_from_after su =? su_size su - 1); [|destruct (su_from_after su =? su_size su - 2)];
  (destruct (su_to_after su =? su_size su); [|destruct (su_to_after su =? su_size su - 1)]);
  rewrite ?sum_pen_ben, ?(sum_pen_both _ _ _ _ _ _ Hnd); simpl;
  destruct (mem v (pins H (su_he su))); simpl; try reflexivity; lia.
Qed.

(** ---------- instances for the caches ---------- *)
Lemma mem_true_in v l : In v l -> mem v l = true. Proof. apply mem_In. Qed.

Lemma km1_Hben H k P u from to e v b :
  NoDup (pins H e) -> In u (pins H e) -> P u = Some from -> from <> to -> (to < k)%nat -> pins_assigned H P k e ->
  sumZ (fun o => op_ben o v b) (km1_mops H (mkSync e from to (ew H e) (esize H e) (pin_count H P e from - 1) (pin_count H P e to + 1))) =
  if mem v (pins H e) then ew H e * (km1_bt (esize H e) (pin_count H (move P u to) e b) - km1_bt (esize H e) (pin_count H P e b)) else 0.
Proof.
  intros A B C D F G. rewrite km1_mops_ben by exact A. simpl su_he. destruct (mem v (pins H e)); [|reflexivity].
  eapply km1_ben_arith; eauto.
Qed.
Lemma km1_dpen_ext Q Q' su v : Q v = Q' v -> km1_dpen Q su v = km1_dpen Q' su v.
Proof. unfold km1_dpen, in_block. intros ->. reflexivity. Qed.
Lemma km1_Hpen H k P Q u from to e v :
  NoDup (pins H e) -> In u (pins H e) -> P u = Some from -> from <> to -> (to < k)%nat -> pins_assigned H P k e ->
  In v (pins H e) -> (v <> u /\ Q v = P v \/ false = true) ->
  sumZ (fun o => op_pen Q o v) (km1_mops H (mkSync e from to (ew H e) (esize H e) (pin_count H P e from - 1) (pin_count H P e to + 1))) =
  ew H e * (km1_pt (esize H e) (pin_count H (move P u to) e (blk (move P u to) v)) - km1_pt (esize H e) (pin_count H P e (blk P v))).
Proof.
  intros A B C D F G Hv [[Hvu HQ]|X]; [|discriminate]. rewrite km1_mops_pen by exact A. simpl su_he. rewrite (mem_true_in _ _ Hv).
  rewrite (km1_dpen_ext Q (move P u to)) by (unfold move; rewrite upd_other by exact Hvu; exact HQ).
  eapply km1_pen_arith; eauto.
Qed.
Lemma sum_ops_nil_pen Q v : sumZ (fun o => op_pen Q o v) [] = 0. Proof. reflexivity. Qed.
Lemma in_mops_node (F : mop -> Z) l : (forall o, In o l -> F o = 0) -> sumZ F l = 0.
Proof. apply sumZ_zero. Qed.
Lemma km1_Hpen0 H Q su v : ~ In v (pins H (su_he su)) -> sumZ (fun o => op_pen Q o v) (km1_mops H su) = 0.
Proof.
  intros Hv. apply sumZ_zero. intros o Ho. unfold km1_mops in Ho. apply in_app_or in Ho.
  assert (X : forall l (mk : nat -> mop), (forall a, op_pen Q (mk a) v = 0 \/ a = v) -> l = pins H (su_he su) -> In o (map mk l) -> op_pen Q o v = 0).
  { intros l mk Hmk -> Hin. apply in_map_iff in Hin. destruct Hin as (a & <- & Ha). destruct (Hmk a) as [E|E]; [exact E|subst; contradiction]. }
  assert (Xc : forall b x a, op_pen Q (MCondPen a b x) v = 0 \/ a = v).
  { intros b x a. simpl. destruct (Nat.eqb_spec v a); [right; congruence|left; reflexivity]. }
  assert (Xb : forall b x a, op_pen Q (MBen a b x) v = 0 \/ a = v) by (intros; left; reflexivity).
  destruct Ho as [Ho|Ho];
    repeat match type of Ho with In _ (if ?c then _ else _) => destruct c end; try (destruct Ho; fail);
    (eapply X; [|reflexivity|exact Ho]); intros a; simpl; solve [tauto | destruct (Nat.eqb_spec v a); [right; congruence|left; reflexivity]].
Qed.
Lemma cut_part_Hpen0 H Q su v : ~ In v (pins H (su_he su)) -> sumZ (fun o => op_pen Q o v) (cut_part_mops H su) = 0.
Proof.
  intros Hv. apply sumZ_zero. intros o Ho. unfold cut_part_mops in Ho. apply in_app_or in Ho.
  assert (Xb : forall b x, In o (map (fun a => MBen a b x) (pins H (su_he su))) -> op_pen Q o v = 0).
  { intros b x Hin. apply in_map_iff in Hin. destruct Hin as (a & <- & Ha). reflexivity. }
  assert (Xp : forall b x y, In o (flat_map (fun a => [MPen a x; MBen a b y]) (pins H (su_he su))) -> op_pen Q o v = 0).
  { intros b x y Hin. apply in_flat_map in Hin. destruct Hin as (a & Ha & [<-|[<-|[]]]); simpl; [|reflexivity].
    destruct (Nat.eqb_spec v a); [subst; contradiction|reflexivity]. }
  destruct Ho as [Ho|Ho];
    repeat match type of Ho with In _ (if ?c then _ else _) => destruct c end; try (destruct Ho; fail);
    try (eapply Xp; exact Ho); eapply Xb; exact Ho.
Qed.
Lemma cut_Hall H su o : In o (cut_mops H su) -> match o with MCondPen _ _ _ => False | _ => True end.
Proof.
  unfold cut_mops. destruct (1 <? su_size su); [|intros []]. unfold cut_part_mops. intros Ho. apply in_app_or in Ho.
  assert (Xb : forall b x, In o (map (fun a => MBen a b x) (pins H (su_he su))) -> match o with MCondPen _ _ _ => False | _ => True end).
  { intros b x Hin. apply in_map_iff in Hin. destruct Hin as (a & <- & Ha). exact I. }
  assert (Xp : forall b x y, In o (flat_map (fun a => [MPen a x; MBen a b y]) (pins H (su_he su))) -> match o with MCondPen _ _ _ => False | _ => True end).
  { intros b x y Hin. apply in_flat_map in Hin. destruct Hin as (a & Ha & [<-|[<-|[]]]); exact I. }
  destruct Ho as [Ho|Ho];
    repeat match type of Ho with In _ (if ?c then _ else _) => destruct c end; try (destruct Ho; fail);
    try (eapply Xp; exact Ho); eapply Xb; exact Ho.
Qed.
Lemma cut_Hben H k P u from to e v b :
  NoDup (pins H e) -> In u (pins H e) -> P u = Some from -> from <> to -> (to < k)%nat -> pins_assigned H P k e ->
  sumZ (fun o => op_ben o v b) (cut_mops H (mkSync e from to (ew H e) (esize H e) (pin_count H P e from - 1) (pin_count H P e to + 1))) =
  if mem v (pins H e) then ew H e * (cut_bt (esize H e) (pin_count H (move P u to) e b) - cut_bt (esize H e) (pin_count H P e b)) else 0.
Proof.
  intros A B C D F G. unfold cut_mops, cut_bt. simpl su_size. destruct (1 <? esize H e).
  - rewrite cut_part_mops_ben; [|exact A|exact D]. simpl su_he. destruct (mem v (pins H e)); [|reflexivity]. eapply cut_ben_arith; eauto.
  - simpl. destruct (mem v (pins H e)); lia.
Qed.
Lemma cut_Hpen H k P Q u from to e v :
  NoDup (pins H e) -> In u (pins H e) -> P u = Some from -> from <> to -> (to < k)%nat -> pins_assigned H P k e ->
  In v (pins H e) -> (v <> u /\ Q v = P v \/ true = true) ->
  sumZ (fun o => op_pen Q o v) (cut_mops H (mkSync e from to (ew H e) (esize H e) (pin_count H P e from - 1) (pin_count H P e to + 1))) =
  ew H e * (cut_pt (esize H e) (pin_count H (move P u to) e (blk (move P u to) v)) - cut_pt (esize H e) (pin_count H P e (blk P v))).
Proof.
  intros A B C D F G Hv _. unfold cut_mops, cut_pt. simpl su_size. destruct (Z.ltb_spec 1 (esize H e)).
  - rewrite cut_part_mops_pen by exact A. simpl su_he. rewrite (mem_true_in _ _ Hv). eapply cut_pen_arith; eauto.
  - simpl. lia.
Qed.
Lemma soed_Hben H k P u from to e v b :
  NoDup (pins H e) -> In u (pins H e) -> P u = Some from -> from <> to -> (to < k)%nat -> pins_assigned H P k e ->
  sumZ (fun o => op_ben o v b) (soed_mops H (mkSync e from to (ew H e) (esize H e) (pin_count H P e from - 1) (pin_count H P e to + 1))) =
  if mem v (pins H e) then ew H e * (soed_bt (esize H e) (pin_count H (move P u to) e b) - soed_bt (esize H e) (pin_count H P e b)) else 0.
Proof.
  intros A B C D F G. unfold soed_mops, soed_bt. simpl su_size. destruct (1 <? esize H e).
  - rewrite sumZ_app, (km1_Hben H k P u) by assumption. rewrite cut_part_mops_ben; [|exact A|exact D]. simpl su_he.
    destruct (mem v (pins H e)); [|reflexivity]. rewrite (cut_ben_arith H k P u from to e b) by assumption.
    unfold km1_bt. cbn [Z.b2z]. ring.
  - simpl. destruct (mem v (pins H e)); lia.
Qed.
Lemma soed_Hpen H k P Q u from to e v :
  NoDup (pins H e) -> In u (pins H e) -> P u = Some from -> from <> to -> (to < k)%nat -> pins_assigned H P k e ->
  In v (pins H e) -> (v <> u /\ Q v = P v \/ false = true) ->
  sumZ (fun o => op_pen Q o v) (soed_mops H (mkSync e from to (ew H e) (esize H e) (pin_count H P e from - 1) (pin_count H P e to + 1))) =
  ew H e * (soed_pt (esize H e) (pin_count H (move P u to) e (blk (move P u to) v)) - soed_pt (esize H e) (pin_count H P e (blk P v))).
Proof.
  intros A B C D F G Hv X. unfold soed_mops, soed_pt. simpl su_size. destruct (Z.ltb_spec 1 (esize H e)).
  - rewrite sumZ_app, (km1_Hpen H k P Q u) by assumption. rewrite cut_part_mops_pen by exact A. simpl su_he. rewrite (mem_true_in _ _ Hv).
    rewrite (cut_pen_arith H k P u from to e v) by assumption. unfold km1_pt. cbn [Z.b2z]. ring.
  - simpl. lia.
Qed.
Lemma soed_Hpen0 H Q su v : ~ In v (pins H (su_he su)) -> sumZ (fun o => op_pen Q o v) (soed_mops H su) = 0.
Proof.
  intros Hv. unfold soed_mops. destruct (1 <? su_size su); [|reflexivity].
  rewrite sumZ_app, km1_Hpen0, cut_part_Hpen0 by exact Hv. reflexivity.
Qed.
Lemma cut_Hpen0 H Q su v : ~ In v (pins H (su_he su)) -> sumZ (fun o => op_pen Q o v) (cut_mops H su) = 0.
Proof.
  intros Hv. unfold cut_mops. destruct (1 <? su_size su); [|reflexivity]. apply cut_part_Hpen0; exact Hv.
Qed.

(** ---------- the micro operations executed without interference are the sequential delta updates ---------- *)
Fixpoint exec_all (fuel : nat) (P : partition) (c : cache) (ops : list mop) : cache :=
  match fuel, ops with
  | S f, o :: r => let '(c', r') := exec_mop P c o r in exec_all f P c' r'
  | _, _ => c
  end.
Lemma exec_all_effect P ops : forall fuel c, (2 * length ops <= fuel)%nat ->
  (forall v, pen (exec_all fuel P c ops) v = pen c v + sumZ (fun o => op_pen P o v) ops) /\
  (forall v b, ben (exec_all fuel P c ops) v b = ben c v b + sumZ (fun o => op_ben o v b) ops).
Proof.
  induction ops as [|o r IH]; intros fuel c Hf.
  - destruct fuel; simpl; split; intros; lia.
  - destruct fuel as [|[|fuel]]; simpl in Hf; try lia. destruct o as [v0 b0 x|v0 x|v0 b0 x].
    + simpl exec_all. destruct (IH (S fuel) (add_ben c v0 b0 x) ltac:(lia)) as [A B].
      split; intros; [rewrite A; simpl; lia|]. simpl in B. rewrite B. simpl. rewrite upd2_eq.
      destruct (Nat.eqb_spec v v0) as [->|]; simpl; [|lia]. destruct (Nat.eqb_spec b b0) as [->|]; simpl; lia.
    + simpl exec_all. destruct (IH (S fuel) (add_pen c v0 x) ltac:(lia)) as [A B].
      split; intros; [|rewrite B; simpl; lia]. simpl in A. rewrite A. simpl. unfold upd.
      destruct (Nat.eqb_spec v v0) as [->|]; simpl; lia.
    + cbn [exec_all exec_mop]. destruct (in_block P b0 v0) eqn:Eb.
      * cbn [exec_mop]. destruct (IH fuel (add_pen c v0 x) ltac:(lia)) as [A B].
        split; intros; [|rewrite B; simpl; lia]. simpl in A. rewrite A. simpl. unfold upd.
        destruct (Nat.eqb_spec v v0) as [->|]; simpl; [rewrite Eb|]; lia.
      * destruct (IH (S fuel) c ltac:(lia)) as [A B].
        split; intros; [|rewrite B; simpl; lia]. rewrite A. simpl.
        destruct (Nat.eqb_spec v v0) as [->|]; simpl; [rewrite Eb|]; lia.
Qed.
Theorem km1_mops_refine H P c su : NoDup (pins H (su_he su)) ->
  let c' := exec_all (2 * length (km1_mops H su)) P c (km1_mops H su) in
  (forall v, pen c' v = pen (km1_delta H P c su) v) /\ (forall v b, ben c' v b = ben (km1_delta H P c su) v b).
Proof.
  intros Hnd c'. destruct (exec_all_effect P (km1_mops H su) _ c (Nat.le_refl _)) as [A B].
  destruct (km1_delta_eff H P c su Hnd) as [A' B']. unfold c'. split; intros.
  - rewrite A, A', km1_mops_pen by exact Hnd. reflexivity.
  - rewrite B, B', km1_mops_ben by exact Hnd. reflexivity.
Qed.
