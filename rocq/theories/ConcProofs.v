(** ConcProofs.v - invariants of the concurrent execution. *)
From Verif Require Import Base Spec SpecLemmas PHG PHGProofs Objective GainCache GainCacheProofs Conc.

Definition pend (H : hypergraph) (t : tst) : list nat :=
  match t with
  | Stored m => inc H (m_u m)
  | Edges _ rem => rem
  | Locked _ e rem | Dec _ e rem _ => e :: rem
  | Incd _ rem _ | Delta _ rem _ => rem
  | _ => []
  end.
Definition holds (t : tst) : option nat :=
  match t with Locked _ e _ | Dec _ e _ _ => Some e | Incd _ _ su => Some (su_he su) | _ => None end.
Definition half (t : tst) (e b : nat) : Z :=
  match t with Dec m e' _ _ => Z.b2z (Nat.eqb e e' && Nat.eqb b (m_from m)) | _ => 0 end.
Definition cwt (H : hypergraph) (t : tst) (b : nat) : Z :=
  match t with
  | Added m _ => if Nat.eqb b (m_to m) then nw H (m_u m) else 0
  | Stored m => if Nat.eqb b (m_from m) then nw H (m_u m) else 0
  | _ => 0
  end.
Definition mv_of (t : tst) : option mv :=
  match t with
  | Idle => None
  | Added m _ | Stored m | Edges m _ | Locked m _ _ | Dec m _ _ _ | Incd m _ _ | Delta m _ _ => Some m
  end.
Definition stored (t : tst) : bool := match t with Idle | Added _ _ => false | _ => true end.
Definition fa_ok (H : hypergraph) (eff : nat -> partition) (t : tst) : Prop :=
  match t with Dec m e _ fa => fa = pin_count H (eff e) e (m_from m) - 1 | _ => True end.

Definition mv_ok (H : hypergraph) (k : nat) (m : mv) : Prop :=
  In (m_u m) (nodes H) /\ m_from m <> m_to m /\ (m_to m < k)%nat /\ (m_from m < k)%nat.

Lemma node_of_mv t : node_of t = match mv_of t with Some m => Some (m_u m) | None => None end.
Proof. destruct t; reflexivity. Qed.

Lemma sum_upd n (th : nat -> tst) i t (F : tst -> Z) : (i < n)%nat ->
  sumZ (fun j => F (upd th i t j)) (seq 0 n) = sumZ (fun j => F (th j)) (seq 0 n) + F t - F (th i).
Proof.
  intros Hi. rewrite (sumZ_change1 _ (fun j => F (th j)) _ i (seq_NoDup _ _)).
  - assert (E : existsb (Nat.eqb i) (seq 0 n) = true) by (apply mem_In, in_seq; lia).
    rewrite E, upd_same. lia.
  - intros j _ Hj. rewrite upd_other by exact Hj. reflexivity.
Qed.

Section Inv.
Variables (H : hypergraph) (k n : nat) (mops : hypergraph -> sync_update -> list mop).
Hypothesis WF : wf_hg H.

Record Base (st : cst) (eff : nat -> partition) : Prop := {
  b_k : pk (sh st) = k;
  b_part : forall v b, part (sh st) v = Some b -> (b < k)%nat;
  b_complete : complete H (part (sh st)) k;
  b_mv : forall i m, (i < n)%nat -> mv_of (th st i) = Some m -> mv_ok H k m;
  b_cur : forall i m, (i < n)%nat -> mv_of (th st i) = Some m ->
            part (sh st) (m_u m) = Some (if stored (th st i) then m_to m else m_from m);
  b_pend : forall i m, (i < n)%nat -> mv_of (th st i) = Some m ->
            NoDup (pend H (th st i)) /\ incl (pend H (th st i)) (inc H (m_u m));
  b_fa : forall i, (i < n)%nat -> fa_ok H eff (th st i);
  b_nodes : forall i j m m', (i < n)%nat -> (j < n)%nat -> i <> j ->
            mv_of (th st i) = Some m -> mv_of (th st j) = Some m' -> m_u m <> m_u m';
  b_lock : forall i e, (i < n)%nat -> holds (th st i) = Some e -> lk st e = true;
  b_lockd : forall i j e, (i < n)%nat -> (j < n)%nat -> i <> j ->
            holds (th st i) = Some e -> holds (th st j) <> Some e;
  b_eff1 : forall i m e, (i < n)%nat -> mv_of (th st i) = Some m -> In e (pend H (th st i)) ->
            eff e (m_u m) = Some (m_from m);
  b_eff2 : forall e v, In e (edges H) -> In v (pins H e) ->
            (forall i m, (i < n)%nat -> mv_of (th st i) = Some m -> m_u m = v -> ~ In e (pend H (th st i))) ->
            eff e v = part (sh st) v;
  b_pc : forall e b, In e (edges H) -> (b < k)%nat ->
            pc (sh st) e b = pin_count H (eff e) e b - sumZ (fun i => half (th st i) e b) (seq 0 n);
  b_cs : forall e b, In e (edges H) -> (b < k)%nat -> cs (sh st) e b = (0 <? pc (sh st) e b);
  b_wt : forall b, (b < k)%nat ->
            wt (sh st) b = block_weight H (part (sh st)) b + sumZ (fun i => cwt H (th st i) b) (seq 0 n)
}.

(** Ghost update: only the increment step moves a node in the per-edge view. *)
Definition eff_next (st : cst) (l : label) (eff : nat -> partition) : nat -> partition :=
  match l with
  | Begin _ _ => eff
  | Adv i => match th st i with
             | Dec m e _ _ => upd eff e (move (eff e) (m_u m) (m_to m))
             | _ => eff
             end
  end.

Lemma sum_half_zero (st : cst) e b :
  (forall j, (j < n)%nat -> half (th st j) e b = 0) -> sumZ (fun i => half (th st i) e b) (seq 0 n) = 0.
Proof. intros Hz. apply sumZ_zero. intros j Hj. apply in_seq in Hj. apply Hz. lia. Qed.

(** Only lock holders have half-done updates. *)
Lemma half_other st eff i e b : Base st eff -> (i < n)%nat -> holds (th st i) = Some e ->
  forall j, (j < n)%nat -> j <> i -> half (th st j) e b = 0.
Proof.
  intros B Hi Hh j Hj Hji. pose proof (b_lockd st eff B i j e Hi Hj ltac:(congruence) Hh) as Hn.
  destruct (th st j); simpl in *; try reflexivity.
  replace (Nat.eqb e e0) with false; [reflexivity|]. symmetry. apply Nat.eqb_neq. congruence.
Qed.
Lemma sum_half_one st eff i e b : Base st eff -> (i < n)%nat -> holds (th st i) = Some e ->
  sumZ (fun j => half (th st j) e b) (seq 0 n) = half (th st i) e b.
Proof.
  intros B Hi Hh.
  rewrite (sumZ_ext _ (fun j => if Nat.eqb j i then half (th st i) e b else 0)).
  - rewrite (sumZ_indicator _ i (fun _ => half (th st i) e b)) by apply seq_NoDup.
    assert (E : mem i (seq 0 n) = true) by (apply mem_In, in_seq; lia). rewrite E. reflexivity.
  - intros j Hj. apply in_seq in Hj. destruct (Nat.eqb_spec j i) as [->|Hji]; [reflexivity|].
    eapply half_other; eauto; lia.
Qed.

Lemma eff_assigned st eff e : Base st eff -> In e (edges H) -> pins_assigned H (eff e) k e.
Proof.
  intros B He v Hv.
  set (q := fun i => match mv_of (th st i) with Some m => Nat.eqb (m_u m) v && mem e (pend H (th st i)) | None => false end).
  destruct (existsb q (seq 0 n)) eqn:Eq.
  - apply existsb_exists in Eq. destruct Eq as [i [Hi Hq]]. apply in_seq in Hi. unfold q in Hq.
    destruct (mv_of (th st i)) as [m|] eqn:Em; [|discriminate].
    apply andb_true_iff in Hq. destruct Hq as [Hq1 Hq2]. apply Nat.eqb_eq in Hq1. apply mem_In in Hq2. subst v.
    exists (m_from m). split; [eapply b_eff1; eauto; lia|]. destruct (b_mv st eff B i m ltac:(lia) Em) as (_ & _ & _ & X). exact X.
  - rewrite (b_eff2 st eff B e v He Hv).
    + apply (b_complete st eff B). eapply wf_pins_nodes; eauto.
    + intros i m Hi Em Hu Hin.
      assert (X : existsb q (seq 0 n) = true).
      { apply existsb_exists. exists i. split; [apply in_seq; lia|]. unfold q. rewrite Em.
        rewrite (proj2 (Nat.eqb_eq _ _) Hu). apply mem_In. exact Hin. }
      congruence.
Qed.

Lemma free_spec st u : is_free n st u = true -> forall j m, (j < n)%nat -> mv_of (th st j) = Some m -> m_u m <> u.
Proof.
  unfold is_free. intros Hf j m Hj Em E. rewrite forallb_forall in Hf.
  assert (Hj' : In j (seq 0 n)) by (apply in_seq; lia). specialize (Hf j Hj').
  rewrite node_of_mv, Em, E, Nat.eqb_refl in Hf. discriminate.
Qed.

Ltac jcase j i := let Hne := fresh "Hne" in destruct (Nat.eq_dec j i) as [->|Hne]; [rewrite ?upd_same | rewrite ?(upd_other _ _ _ _ Hne)].

(** Generic step: thread [i] goes from [th st i] to [t]; the three disjunctions describe how block ids, the
    per-edge view and the locks may change. *)
Definition view_change (st : cst) (eff : nat -> partition) (st' : cst) (eff' : nat -> partition) (i : nat) (t : tst) : Prop :=
  (eff' = eff /\ part (sh st') = part (sh st) /\ pend H t = pend H (th st i)) \/
  (exists m, eff' = eff /\ mv_of (th st i) = Some m /\ mv_of t = Some m /\ stored (th st i) = false /\ stored t = true /\ pend H (th st i) = [] /\ pend H t = inc H (m_u m) /\ part (sh st') = upd (part (sh st)) (m_u m) (Some (m_to m))) \/
  (exists m e rem, mv_of (th st i) = Some m /\ mv_of t = Some m /\ stored (th st i) = true /\ stored t = true /\ pend H (th st i) = e :: rem /\ pend H t = rem /\ holds (th st i) = Some e /\ eff' = upd eff e (move (eff e) (m_u m) (m_to m)) /\ part (sh st') = part (sh st)).
Definition lock_change (st st' : cst) (i : nat) (t : tst) : Prop :=
  (holds t = holds (th st i) /\ forall e, lk st' e = lk st e) \/
  (holds t = None /\ exists y, holds (th st i) = Some y /\ forall e, e <> y -> lk st' e = lk st e) \/
  (exists y, holds t = Some y /\ holds (th st i) = None /\ lk st y = false /\ lk st' y = true /\ forall e, e <> y -> lk st' e = lk st e).
Definition mv_change (st : cst) (i : nat) (t : tst) : Prop :=
  mv_of t = mv_of (th st i) \/ (mv_of t = None /\ pend H (th st i) = []) \/
  (mv_of (th st i) = None /\ pend H t = [] /\ exists m, mv_of t = Some m /\ is_free n st (m_u m) = true).

Lemma base_step st eff st' eff' i t :
  Base st eff -> (i < n)%nat ->
  (forall j, th st' j = upd (th st) i t j) ->
  pk (sh st') = k ->
  (forall m, mv_of t = Some m -> mv_ok H k m /\ NoDup (pend H t) /\ incl (pend H t) (inc H (m_u m)) /\ part (sh st') (m_u m) = Some (if stored t then m_to m else m_from m)) ->
  mv_change st i t -> view_change st eff st' eff' i t -> lock_change st st' i t ->
  fa_ok H eff' t ->
  (forall e b, In e (edges H) -> (b < k)%nat ->
      pc (sh st') e b = pin_count H (eff' e) e b - (sumZ (fun j => half (th st j) e b) (seq 0 n) + half t e b - half (th st i) e b)) ->
  (forall e b, In e (edges H) -> (b < k)%nat -> cs (sh st') e b = (0 <? pc (sh st') e b)) ->
  (forall b, (b < k)%nat -> wt (sh st') b = block_weight H (part (sh st')) b +
      (sumZ (fun j => cwt H (th st j) b) (seq 0 n) + cwt H t b - cwt H (th st i) b)) ->
  Base st' eff'.
Proof.
  intros B Hi Hth Hk Hmv Hmv2 Hview Hlk Hfa Hpc Hcs Hwt.
  assert (Hdist : forall j m m', (j < n)%nat -> j <> i -> mv_of t = Some m -> mv_of (th st j) = Some m' -> m_u m <> m_u m').
  { intros j m m' Hj Hji E1 E2. destruct Hmv2 as [E|[[E _]|(E0 & _ & m0 & E & F)]].
    - rewrite E in E1. eapply (b_nodes st eff B i j); eauto.
    - congruence.
    - rewrite E in E1. injection E1 as <-. intros X. symmetry in X. revert X. eapply free_spec; eauto. }
  assert (Hpart_other : forall v, (forall m, mv_of t = Some m -> m_u m <> v) -> part (sh st') v = part (sh st) v).
  { intros v Hv. destruct Hview as [(_ & -> & _)|[(m & _ & E1 & E2 & _ & _ & _ & _ & ->)|(m & e & rem & _ & _ & _ & _ & _ & _ & _ & _ & ->)]];
      try reflexivity. apply upd_other. specialize (Hv m E2). congruence. }
  constructor.
  - exact Hk.
  - intros v b. destruct Hview as [(_ & -> & _)|[(m & _ & E1 & E2 & _ & _ & _ & _ & ->)|(m & e & rem & _ & _ & _ & _ & _ & _ & _ & _ & ->)]];
      try apply (b_part st eff B).
    unfold upd. destruct (Nat.eqb v (m_u m)); [|apply (b_part st eff B)].
    intros [= <-]. destruct (b_mv st eff B i m Hi E1) as (_ & _ & X & _). exact X.
  - intros v Hv. destruct Hview as [(_ & -> & _)|[(m & _ & E1 & E2 & _ & _ & _ & _ & ->)|(m & e & rem & _ & _ & _ & _ & _ & _ & _ & _ & ->)]];
      try (apply (b_complete st eff B); exact Hv).
    unfold upd. destruct (Nat.eqb v (m_u m)); [|apply (b_complete st eff B); exact Hv].
    exists (m_to m). destruct (b_mv st eff B i m Hi E1) as (_ & _ & X & _). tauto.
  - intros j m Hj. rewrite Hth. jcase j i; intros E; [apply Hmv; exact E|eapply b_mv; eauto].
  - intros j m Hj. rewrite Hth. jcase j i; intros E.
    + apply Hmv. exact E.
    + rewrite Hpart_other; [eapply b_cur; eauto|]. intros m0 E0. eapply Hdist; eauto.
  - intros j m Hj. rewrite Hth. jcase j i; intros E; [destruct (Hmv m E) as (_ & X & Y & _); tauto|eapply b_pend; eauto].
  - intros j Hj. rewrite Hth. jcase j i; [exact Hfa|].
    pose proof (b_fa st eff B j Hj) as F.
    destruct Hview as [(-> & _)|[(m & -> & _)|(m & e & rem & E1 & E2 & _ & _ & E3 & E4 & E5 & -> & _)]]; try exact F.
    destruct (th st j) as [| | | | |m' e' rem' fa| |] eqn:Ej; simpl in *; try exact I.
    unfold upd. destruct (Nat.eqb_spec e' e) as [->|]; [|exact F].
    exfalso. apply (b_lockd st eff B i j e Hi Hj ltac:(congruence) E5). rewrite Ej. reflexivity.
  - intros j j' m m' Hj Hj' Hjj. rewrite !Hth. jcase j i; jcase j' i; intros E1 E2.
    + congruence.
    + apply (Hdist j' m m' Hj' Hne E1 E2).
    + apply not_eq_sym. apply (Hdist j m' m Hj Hne E2 E1).
    + eapply (b_nodes st eff B j j'); eauto.
  - intros j e Hj. rewrite Hth. jcase j i; intros E.
    + destruct Hlk as [[E1 E2]|[[E1 _]|[y (E1 & E2 & E3 & E4 & E5)]]].
      * rewrite E2. eapply b_lock; eauto. congruence.
      * congruence.
      * congruence.
    + pose proof (b_lock st eff B j e Hj E) as L.
      destruct Hlk as [[E1 E2]|[[E1 [y [E2 E3]]]|[y (E1 & E2 & E3 & E4 & E5)]]].
      * rewrite E2. exact L.
      * rewrite E3; [exact L|]. intros ->. apply (b_lockd st eff B i j y Hi Hj ltac:(congruence) E2). exact E.
      * rewrite E5; [exact L|]. intros ->. congruence.
  - intros j j' e Hj Hj' Hjj. rewrite !Hth. jcase j i; jcase j' i; intros E1 E2.
    + congruence.
    + destruct Hlk as [[F1 F2]|[[F1 [y [F2 F3]]]|[y (F1 & F2 & F3 & F4 & F5)]]].
      * apply (b_lockd st eff B i j' e Hi Hj' ltac:(congruence)); [congruence|exact E2].
      * congruence.
      * assert (y = e) by congruence. subst y. pose proof (b_lock st eff B j' e Hj' E2). congruence.
    + destruct Hlk as [[F1 F2]|[[F1 [y [F2 F3]]]|[y (F1 & F2 & F3 & F4 & F5)]]].
      * apply (b_lockd st eff B i j e Hi Hj ltac:(congruence)); [congruence|exact E1].
      * congruence.
      * assert (y = e) by congruence. subst y. pose proof (b_lock st eff B j e Hj E1). congruence.
    + eapply (b_lockd st eff B j j'); eauto.
  - (* eff1 *)
    intros j m e Hj. rewrite Hth. jcase j i; intros E Hin.
    + destruct Hview as [(-> & Hp & Hpe)|[(m0 & -> & E1 & E2 & S1 & S2 & P1 & P2 & Hp)|(m0 & e0 & rem & E1 & E2 & S1 & S2 & E3 & E4 & E5 & -> & Hp)]].
      * rewrite Hpe in Hin. destruct Hmv2 as [F|[[F _]|(F & Fp & _)]].
        -- rewrite F in E. eapply b_eff1; eauto.
        -- congruence.
        -- rewrite <- Hpe, Fp in Hin. destruct Hin.
      * assert (m0 = m) by congruence. subst m0. rewrite P2 in Hin.
        pose proof (b_mv st eff B i m Hi E1) as (M1 & M2 & M3 & M4).
        apply (wf_inc H WF _ e M1) in Hin. destruct Hin as [Hin1 Hin2].
        rewrite (b_eff2 st eff B e (m_u m) Hin1 Hin2).
        -- rewrite (b_cur st eff B i m Hi E1), S1. reflexivity.
        -- intros j m' Hj' E' Hu Hpp. destruct (Nat.eq_dec j i) as [->|Hji]; [rewrite P1 in Hpp; destruct Hpp|].
           apply (b_nodes st eff B i j m m' Hi Hj' ltac:(congruence) E1 E'). congruence.
      * assert (m0 = m) by congruence. subst m0. rewrite E4 in Hin.
        destruct (b_pend st eff B i m Hi E1) as [Nd _]. rewrite E3 in Nd. inversion Nd as [|x y Hni Hnd]; subst x y.
        rewrite upd_other by (intros ->; contradiction). eapply b_eff1; eauto. rewrite E3. right. exact Hin.
    + destruct Hview as [(-> & Hp & Hpe)|[(m0 & -> & E1 & E2 & S1 & S2 & P1 & P2 & Hp)|(m0 & e0 & rem & E1 & E2 & S1 & S2 & E3 & E4 & E5 & -> & Hp)]];
        try (eapply b_eff1; eauto; fail).
      unfold upd. destruct (Nat.eqb_spec e e0) as [->|]; [|eapply b_eff1; eauto].
      unfold move. rewrite upd_other; [eapply b_eff1; eauto|].
      apply not_eq_sym. eapply (b_nodes st eff B i j); eauto.
  - (* eff2 *)
    intros e v He Hv Hno.
    assert (Hno_other : forall j m, (j < n)%nat -> j <> i -> mv_of (th st j) = Some m -> m_u m = v -> ~ In e (pend H (th st j))).
    { intros j m Hj Hji E. specialize (Hno j m Hj). rewrite Hth, upd_other in Hno by exact Hji. apply Hno. exact E. }
    assert (Hno_i : forall m, mv_of t = Some m -> m_u m = v -> ~ In e (pend H t)).
    { intros m E. specialize (Hno i m Hi). rewrite Hth, upd_same in Hno. apply Hno. exact E. }
    destruct Hview as [(-> & Hp & Hpe)|[(m0 & -> & E1 & E2 & S1 & S2 & P1 & P2 & Hp)|(m0 & e0 & rem & E1 & E2 & S1 & S2 & E3 & E4 & E5 & -> & Hp)]].
    + rewrite Hp. apply (b_eff2 st eff B e v He Hv). intros j m Hj E Hu.
      destruct (Nat.eq_dec j i) as [->|Hji]; [|eapply Hno_other; eauto].
      destruct Hmv2 as [F|[[F Fp]|(F & Fp & _)]].
      * rewrite <- Hpe. apply (Hno_i m); congruence.
      * rewrite Fp. intros [].
      * congruence.
    + assert (Hvu : v <> m_u m0).
      { intros ->. apply (Hno_i m0 E2 eq_refl). rewrite P2.
        destruct (b_mv st eff B i m0 Hi E1) as (M1 & _). apply (wf_inc H WF _ e M1). tauto. }
      rewrite Hp, upd_other by exact Hvu. apply (b_eff2 st eff B e v He Hv). intros j m Hj E Hu.
      destruct (Nat.eq_dec j i) as [->|Hji]; [rewrite P1; intros []|eapply Hno_other; eauto].
    + rewrite Hp. destruct (Nat.eq_dec v (m_u m0)) as [->|Hvu].
      * unfold upd. destruct (Nat.eqb_spec e e0) as [->|Hee].
        -- unfold move. rewrite upd_same. rewrite (b_cur st eff B i m0 Hi E1), S1. reflexivity.
        -- apply (b_eff2 st eff B e _ He Hv). intros j m Hj E Hu.
           destruct (Nat.eq_dec j i) as [->|Hji]; [|eapply Hno_other; eauto].
           rewrite E3. intros [X|X]; [congruence|]. apply (Hno_i m0 E2 eq_refl). rewrite E4. exact X.
      * assert (X : eff e v = part (sh st) v).
        { apply (b_eff2 st eff B e v He Hv). intros j m Hj E Hu.
          destruct (Nat.eq_dec j i) as [->|Hji]; [congruence|eapply Hno_other; eauto]. }
        unfold upd. destruct (Nat.eqb_spec e e0) as [->|Hee]; [|exact X].
        unfold move. rewrite upd_other by exact Hvu. exact X.
  - intros e b He Hb. rewrite (Hpc e b He Hb).
    rewrite (sumZ_ext (fun j => half (th st' j) e b) (fun j => half (upd (th st) i t j) e b)) by (intros j _; rewrite Hth; reflexivity).
    rewrite (sum_upd n (th st) i t (fun x => half x e b) Hi). lia.
  - exact Hcs.
  - intros b Hb. rewrite (Hwt b Hb).
    rewrite (sumZ_ext (fun j => cwt H (th st' j) b) (fun j => cwt H (upd (th st) i t j) b)) by (intros j _; rewrite Hth; reflexivity).
    rewrite (sum_upd n (th st) i t (fun x => cwt H x b) Hi). lia.
Qed.

Lemma step_base st eff l st' : Base st eff -> cstep H n mops st l = Some st' -> Base st' (eff_next st l eff).
Proof.
  intros B Hs. destruct l as [i m|i]; simpl in Hs.
  - (* Begin *)
    destruct (th st i) eqn:Et; try discriminate.
    destruct (_ && _) eqn:Eg in Hs; [|discriminate]. injection Hs as <-.
    repeat (apply andb_true_iff in Eg; destruct Eg as [Eg ?]).
    apply Nat.ltb_lt in Eg. rename Eg into Hi.
    match goal with X : is_free _ _ _ = true |- _ => rename X into Hfree end.
    match goal with X : in_block _ _ _ = true |- _ => apply in_block_true in X; rename X into Hp end.
    match goal with X : negb _ = true |- _ => apply negb_true_iff, Nat.eqb_neq in X; rename X into Hft end.
    match goal with X : (_ <? _)%nat = true |- _ => apply Nat.ltb_lt in X; rename X into Hto end.
    match goal with X : mem _ _ = true |- _ => apply mem_In in X; rename X into Hun end.
    rewrite (b_k st eff B) in Hto. simpl eff_next.
    apply (base_step st eff _ eff i (Added m (wt (add_wt (sh st) (m_to m) (nw H (m_u m))) (m_to m)))); auto; simpl.
    + apply (b_k st eff B).
    + intros m0 [= <-]. split; [|split; [constructor|split; [intros x []|exact Hp]]].
      repeat split; auto. eapply b_part; eauto.
    + right; right. rewrite Et. simpl. split; [reflexivity|]. split; [reflexivity|]. exists m. tauto.
    + left. simpl. rewrite Et. tauto.
    + left. simpl. rewrite Et. tauto.
    + exact I.
    + intros e b He Hb. rewrite (b_pc st eff B e b He Hb), Et. simpl. lia.
    + apply (b_cs st eff B).
    + intros b Hb. rewrite Et. simpl. unfold upd.
      destruct (Nat.eqb_spec b (m_to m)) as [->|Hbt]; rewrite (b_wt st eff B) by assumption; lia.
  - destruct (i <? n)%nat eqn:Hi0; [|discriminate]. apply Nat.ltb_lt in Hi0. rename Hi0 into Hi.
    unfold adv in Hs. unfold eff_next. destruct (th st i) as [|m a|m|m rem|m e rem|m e rem fa|m rem su|m rem ops] eqn:Et; try discriminate.
    + (* Added *)
      assert (Hm : mv_of (th st i) = Some m) by (rewrite Et; reflexivity).
      pose proof (b_mv st eff B i m Hi Hm) as Mok. pose proof (b_cur st eff B i m Hi Hm) as Hp. rewrite Et in Hp. simpl in Hp.
      destruct Mok as (M1 & M2 & M3 & M4).
      destruct (a <=? m_max m); injection Hs as <-.
      * apply (base_step st eff _ eff i (Stored m)); auto; simpl.
        -- apply (b_k st eff B).
        -- intros m0 [= <-]. split; [repeat split; auto|]. split; [apply (wf_inc_nodup H WF); exact M1|].
           split; [apply incl_refl|apply upd_same].
        -- left. rewrite Et. reflexivity.
        -- right; left. exists m. simpl. rewrite Et. simpl. repeat split; reflexivity.
        -- left. simpl. rewrite Et. tauto.
        -- exact I.
        -- intros e b He Hb. rewrite (b_pc st eff B e b He Hb), Et. simpl. lia.
        -- apply (b_cs st eff B).
        -- intros b Hb. rewrite (b_wt st eff B b Hb), Et. simpl.
           fold (move (part (sh st)) (m_u m) (m_to m)).
           rewrite block_weight_move by (try apply WF; assumption). unfold in_block. rewrite Hp.
           rewrite (Nat.eqb_sym (m_to m) b), (Nat.eqb_sym (m_from m) b).
           destruct (Nat.eqb b (m_to m)), (Nat.eqb b (m_from m)); simpl; lia.
      * apply (base_step st eff _ eff i Idle); auto; simpl.
        -- apply (b_k st eff B).
        -- discriminate.
        -- right; left. rewrite Et. split; reflexivity.
        -- left. simpl. rewrite Et. tauto.
        -- left. simpl. rewrite Et. tauto.
        -- exact I.
        -- intros e b He Hb. rewrite (b_pc st eff B e b He Hb), Et. simpl. lia.
        -- apply (b_cs st eff B).
        -- intros b Hb. rewrite Et. simpl. unfold upd.
           destruct (Nat.eqb_spec b (m_to m)) as [->|Hbt]; rewrite (b_wt st eff B) by assumption; lia.
    + (* Stored *)
      assert (Hm : mv_of (th st i) = Some m) by (rewrite Et; reflexivity).
      pose proof (b_mv st eff B i m Hi Hm) as Mok. pose proof (b_cur st eff B i m Hi Hm) as Hp. rewrite Et in Hp. simpl in Hp.
      destruct Mok as (M1 & M2 & M3 & M4). injection Hs as <-.
      apply (base_step st eff _ eff i (Edges m (inc H (m_u m)))); auto; simpl.
      * apply (b_k st eff B).
      * intros m0 [= <-]. split; [repeat split; auto|]. split; [apply (wf_inc_nodup H WF); exact M1|].
        split; [apply incl_refl|exact Hp].
      * left. rewrite Et. reflexivity.
      * left. simpl. rewrite Et. tauto.
      * left. simpl. rewrite Et. tauto.
      * exact I.
      * intros e b He Hb. rewrite (b_pc st eff B e b He Hb), Et. simpl. lia.
      * apply (b_cs st eff B).
      * intros b Hb. rewrite Et. simpl. unfold upd.
        destruct (Nat.eqb_spec b (m_from m)) as [->|Hbt]; rewrite (b_wt st eff B) by assumption; lia.
    + (* Edges *)
      assert (Hm : mv_of (th st i) = Some m) by (rewrite Et; reflexivity).
      pose proof (b_mv st eff B i m Hi Hm) as Mok. pose proof (b_cur st eff B i m Hi Hm) as Hp. rewrite Et in Hp. simpl in Hp.
      pose proof (b_pend st eff B i m Hi Hm) as [Pn Pi]. rewrite Et in Pn, Pi. simpl in Pn, Pi.
      destruct rem as [|e rem].
      * injection Hs as <-. apply (base_step st eff _ eff i Idle); auto; simpl.
        -- apply (b_k st eff B).
        -- discriminate.
        -- right; left. rewrite Et. split; reflexivity.
        -- left. simpl. rewrite Et. tauto.
        -- left. simpl. rewrite Et. tauto.
        -- exact I.
        -- intros e b He Hb. rewrite (b_pc st eff B e b He Hb), Et. simpl. lia.
        -- apply (b_cs st eff B).
        -- intros b Hb. rewrite (b_wt st eff B b Hb), Et. simpl. lia.
      * destruct (lk st e) eqn:El; [discriminate|]. injection Hs as <-.
        apply (base_step st eff _ eff i (Locked m e rem)); auto; simpl.
        -- apply (b_k st eff B).
        -- intros m0 [= <-]. tauto.
        -- left. rewrite Et. reflexivity.
        -- left. simpl. rewrite Et. tauto.
        -- right; right. exists e. simpl. rewrite Et. simpl. rewrite upd_same. repeat split; auto.
           intros e' He'. apply upd_other. exact He'.
        -- exact I.
        -- intros e' b He Hb. rewrite (b_pc st eff B e' b He Hb), Et. simpl. lia.
        -- apply (b_cs st eff B).
        -- intros b Hb. rewrite (b_wt st eff B b Hb), Et. simpl. lia.
    + (* Locked *)
      assert (Hm : mv_of (th st i) = Some m) by (rewrite Et; reflexivity).
      pose proof (b_mv st eff B i m Hi Hm) as (M1 & M2 & M3 & M4). pose proof (b_cur st eff B i m Hi Hm) as Hp. rewrite Et in Hp. simpl in Hp.
      pose proof (b_pend st eff B i m Hi Hm) as [Pn Pi]. rewrite Et in Pn, Pi. simpl in Pn, Pi.
      assert (He : In e (edges H) /\ In (m_u m) (pins H e)) by (apply (wf_inc H WF _ e M1), Pi; left; reflexivity).
      destruct He as [He Hpin].
      assert (Hhold : holds (th st i) = Some e) by (rewrite Et; reflexivity).
      assert (Heu : eff e (m_u m) = Some (m_from m)) by (eapply b_eff1; eauto; rewrite Et; left; reflexivity).
      assert (Hpce : forall b, (b < k)%nat -> pc (sh st) e b = pin_count H (eff e) e b).
      { intros b Hb. rewrite (b_pc st eff B e b He Hb), (sum_half_one st eff i e b B Hi Hhold), Et. simpl. lia. }
      unfold decrementPinCountOfBlock in Hs.
      destruct (_ && _) eqn:Eg in Hs; [|discriminate]. injection Hs as <-.
      set (after := pc (sh st) e (m_from m) - 1) in *.
      assert (Hcnt : 0 < pc (sh st) e (m_from m)) by (rewrite Hpce by exact M4; apply pin_count_pos_iff; exists (m_u m); tauto).
      apply (base_step st eff _ eff i (Dec m e rem after)); auto; simpl.
      * destruct (after =? 0); simpl; apply (b_k st eff B).
      * intros m0 [= <-]. split; [repeat split; auto|]. split; [exact Pn|]. split; [exact Pi|].
        destruct (after =? 0); simpl; exact Hp.
      * left. rewrite Et. reflexivity.
      * left. simpl. rewrite Et. split; [reflexivity|]. split; [destruct (after =? 0); reflexivity|reflexivity].
      * left. simpl. rewrite Et. tauto.
      * unfold after. rewrite Hpce by exact M4. reflexivity.
      * intros e' b He' Hb. rewrite Et. simpl.
        assert (E : pc (if after =? 0 then removeBlock (setPinCountInPart (sh st) e (m_from m) after) e (m_from m)
                        else setPinCountInPart (sh st) e (m_from m) after) e' b =
                    pc (sh st) e' b - Z.b2z (Nat.eqb e' e && Nat.eqb b (m_from m))).
        { destruct (after =? 0); simpl; rewrite upd2_eq; unfold after;
            destruct (Nat.eqb_spec e' e) as [->|]; simpl; try lia;
            destruct (Nat.eqb_spec b (m_from m)) as [->|]; simpl; lia. }
        rewrite E, (b_pc st eff B e' b He' Hb). lia.
      * intros e' b He' Hb. pose proof (b_cs st eff B e' b He' Hb) as Cs.
        destruct (Z.eqb_spec after 0) as [Ea|Ea]; simpl; rewrite !upd2_eq;
          destruct (Nat.eqb_spec e' e) as [->|]; simpl; try exact Cs;
          destruct (Nat.eqb_spec b (m_from m)) as [->|]; simpl; try exact Cs; rewrite Cs; unfold after in *; lia.
      * intros b Hb. rewrite Et. simpl. destruct (after =? 0); simpl; rewrite (b_wt st eff B b Hb); lia.
    + (* Dec *)
      assert (Hm : mv_of (th st i) = Some m) by (rewrite Et; reflexivity).
      pose proof (b_mv st eff B i m Hi Hm) as (M1 & M2 & M3 & M4). pose proof (b_cur st eff B i m Hi Hm) as Hp. rewrite Et in Hp. simpl in Hp.
      pose proof (b_pend st eff B i m Hi Hm) as [Pn Pi]. rewrite Et in Pn, Pi. simpl in Pn, Pi.
      assert (He : In e (edges H) /\ In (m_u m) (pins H e)) by (apply (wf_inc H WF _ e M1), Pi; left; reflexivity).
      destruct He as [He Hpin].
      assert (Hhold : holds (th st i) = Some e) by (rewrite Et; reflexivity).
      assert (Heu : eff e (m_u m) = Some (m_from m)) by (eapply b_eff1; eauto; rewrite Et; left; reflexivity).
      assert (Hpce : forall b, (b < k)%nat -> pc (sh st) e b = pin_count H (eff e) e b - Z.b2z (Nat.eqb b (m_from m))).
      { intros b Hb. rewrite (b_pc st eff B e b He Hb), (sum_half_one st eff i e b B Hi Hhold), Et. simpl.
        rewrite Nat.eqb_refl. simpl. lia. }
      assert (Heffmove : forall b, pin_count H (move (eff e) (m_u m) (m_to m)) e b =
                pin_count H (eff e) e b + Z.b2z (Nat.eqb b (m_to m)) - Z.b2z (Nat.eqb b (m_from m))).
      { intros b. apply (pc_move H k); auto. apply WF; exact He. }
      assert (Hto0 : 0 <= pc (sh st) e (m_to m)).
      { rewrite Hpce by exact M3. replace (Nat.eqb (m_to m) (m_from m)) with false by lia. simpl.
        pose proof (pin_count_nonneg H (eff e) e (m_to m)). lia. }
      unfold incrementPinCountOfBlock in Hs.
      destruct (_ <? _)%nat eqn:Eg in Hs; [|discriminate]. injection Hs as <-.
      set (after := pc (sh st) e (m_to m) + 1) in *.
      set (su := mkSync _ _ _ _ _ _ _).
      assert (Epc : forall e' b, pc (if after =? 1 then addBlock (setPinCountInPart (sh st) e (m_to m) after) e (m_to m)
                        else setPinCountInPart (sh st) e (m_to m) after) e' b =
                    pc (sh st) e' b + Z.b2z (Nat.eqb e' e && Nat.eqb b (m_to m))).
      { intros e' b. destruct (after =? 1); simpl; rewrite upd2_eq; unfold after;
            destruct (Nat.eqb_spec e' e) as [->|]; simpl; try lia;
            destruct (Nat.eqb_spec b (m_to m)) as [->|]; simpl; lia. }
      apply (base_step st eff _ (upd eff e (move (eff e) (m_u m) (m_to m))) i (Incd m rem su)); auto; simpl.
      * destruct (after =? 1); simpl; apply (b_k st eff B).
      * inversion Pn as [|x y Hni Hnd]; subst x y.
        intros m0 [= <-]. split; [repeat split; auto|]. split; [exact Hnd|].
        split; [intros x Hx; apply Pi; right; exact Hx|]. destruct (after =? 1); simpl; exact Hp.
      * left. rewrite Et. reflexivity.
      * right; right. exists m, e, rem. simpl. rewrite Et. simpl. repeat split; auto. destruct (after =? 1); reflexivity.
      * left. simpl. rewrite Et. tauto.
      * exact I.
      * intros e' b He' Hb. rewrite Et. simpl. rewrite Epc, (b_pc st eff B e' b He' Hb). unfold upd.
        destruct (Nat.eqb_spec e' e) as [->|]; simpl; [|lia]. rewrite Heffmove. lia.
      * intros e' b He' Hb. rewrite Epc. pose proof (b_cs st eff B e' b He' Hb) as Cs.
        destruct (Z.eqb_spec after 1) as [Ea|Ea]; simpl; rewrite ?upd2_eq;
          destruct (Nat.eqb_spec e' e) as [->|]; simpl; rewrite ?Z.add_0_r; try exact Cs;
          destruct (Nat.eqb_spec b (m_to m)) as [->|]; simpl; rewrite ?Z.add_0_r; try exact Cs; rewrite Cs; unfold after in *; lia.
      * intros b Hb. rewrite Et. simpl. destruct (after =? 1); simpl; rewrite (b_wt st eff B b Hb); lia.
    + (* Incd *)
      assert (Hm : mv_of (th st i) = Some m) by (rewrite Et; reflexivity).
      pose proof (b_mv st eff B i m Hi Hm) as Mok. pose proof (b_cur st eff B i m Hi Hm) as Hp. rewrite Et in Hp. simpl in Hp.
      pose proof (b_pend st eff B i m Hi Hm) as [Pn Pi]. rewrite Et in Pn, Pi. simpl in Pn, Pi.
      injection Hs as <-. apply (base_step st eff _ eff i (Delta m rem (mops H su))); auto; simpl.
      * apply (b_k st eff B).
      * intros m0 [= <-]. tauto.
      * left. rewrite Et. reflexivity.
      * left. simpl. rewrite Et. tauto.
      * right; left. simpl. rewrite Et. simpl. split; [reflexivity|]. exists (su_he su). split; [reflexivity|].
        intros e He. apply upd_other. exact He.
      * exact I.
      * intros e b He Hb. rewrite (b_pc st eff B e b He Hb), Et. simpl. lia.
      * apply (b_cs st eff B).
      * intros b Hb. rewrite (b_wt st eff B b Hb), Et. simpl. lia.
    + (* Delta *)
      assert (Hm : mv_of (th st i) = Some m) by (rewrite Et; reflexivity).
      pose proof (b_mv st eff B i m Hi Hm) as Mok. pose proof (b_cur st eff B i m Hi Hm) as Hp. rewrite Et in Hp. simpl in Hp.
      pose proof (b_pend st eff B i m Hi Hm) as [Pn Pi]. rewrite Et in Pn, Pi. simpl in Pn, Pi.
      assert (X : exists t, (t = Edges m rem \/ exists ops', t = Delta m rem ops') /\ sh st' = sh st /\ lk st' = lk st /\ (forall j, th st' j = upd (th st) i t j)).
      { destruct ops as [|o ops].
        - injection Hs as <-. exists (Edges m rem). simpl. tauto.
        - destruct (exec_mop (part (sh st)) (gc st) o ops) as [c' ops'] eqn:Ex. injection Hs as <-.
          exists (Delta m rem ops'). simpl. split; [right; eauto|tauto]. }
      destruct X as (t & Ht & Hsh & Hlk & Hth).
      apply (base_step st eff _ eff i t); auto; rewrite ?Hsh.
      * apply (b_k st eff B).
      * intros m0. destruct Ht as [->|[ops' ->]]; simpl; intros [= <-]; tauto.
      * left. rewrite Et. destruct Ht as [->|[ops' ->]]; reflexivity.
      * left. rewrite Hsh, Et. destruct Ht as [->|[ops' ->]]; tauto.
      * left. rewrite Hlk, Et. destruct Ht as [->|[ops' ->]]; tauto.
      * destruct Ht as [->|[ops' ->]]; exact I.
      * intros e b He Hb. rewrite (b_pc st eff B e b He Hb), Et. destruct Ht as [->|[ops' ->]]; simpl; lia.
      * apply (b_cs st eff B).
      * intros b Hb. rewrite (b_wt st eff B b Hb), Et. destruct Ht as [->|[ops' ->]]; simpl; lia.
Qed.

End Inv.
