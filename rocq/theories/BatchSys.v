(** All threads together with the shared batch index assigner. *)
From Coq Require Import List Arith Lia Bool Permutation Sorted.
From Verif Require Import Base Batch BatchSort BatchThr INARep INAOps2.
Import ListNotations.
Local Open Scope nat_scope.

Definition cgrp (p : tpc) : list nat :=
  match p with
  | Ready | Mark => []
  | Req _ g | Load _ g | Find _ g _ _ | Got _ g _ _ _ | Up _ g _ _ | Done _ g _ _ => g
  end.
Definition cu (p : tpc) : nat :=
  match p with
  | Ready | Mark => 0
  | Req u _ | Load u _ | Find u _ _ _ | Got u _ _ _ _ | Up u _ _ _ | Done u _ _ _ => u
  end.
Definition thr_ok t k rs th := tinv t k rs (tq th) (tnq th) (tcur th) (tasg th) (cu (tpcr th)) (cgrp (tpcr th)).

Definition pcok (s : assigner) (th : thr) : Prop :=
  match tpcr th with
  | Ready => tq th = [] -> tnq th = []
  | Mark => tnq th = []
  | Req _ g => g <> []
  | Load _ g => g <> [] /\ tcur th <= hwm s
  | Find _ g i _ | Got _ g i _ _ | Up _ g i _ | Done _ g i _ => g <> [] /\ tcur th <= i
  end.

Lemma tinv_u t k rs q nq cur asg u u' : tinv t k rs q nq cur asg u [] -> tinv t k rs q nq cur asg u' [].
Proof. intros [I1 I2 I3 I4 I5 I6 I7 I8 I9 I10 I11 I12 I13]. split; auto. intros x []. Qed.

Lemma step_thr t k mx rs c m s th s' th' : (forall r, In r rs -> ct_ver t r <> Some k) ->
  thr_ok t k rs th -> pcok s th -> tstep t k mx c m s th = Some (s', th') ->
  thr_ok t k rs th' /\ pcok s' th' /\ hwm s <= hwm s'.
Proof.
  intros Hrs I P. destruct th as [q nq cur asg pc]. unfold thr_ok, tstep, pcok in *. cbn [tq tnq tcur tasg tpcr] in *.
  destruct pc as [|u g|u g|u g i up|u g i p up|u g i p|u g i p|]; cbn [cgrp cu] in *.
  - destruct (pick c q) as [[[|v l] q']|] eqn:Ep; try discriminate.
    destruct (more t k (ct_start t v) (ct_end t v) l) as [g r] eqn:Em. intros H. injection H as <- <-. cbn.
    split; [|split; [discriminate|lia]].
    apply (tinv_pop t k rs Hrs q nq cur asg 0 v l q' g r I); [eapply pick_perm; eauto|exact Em].
  - intros H. injection H as <- <-. cbn. destruct (Nat.leb_spec cur (hwm s)); cbn; auto 6.
  - intros H. injection H as <- <-. cbn. destruct P. split; [exact I|]. split; [auto|lia].
  - intros H. injection H as <- <-. cbn. destruct P. destruct (mx <=? cnt s i); cbn; (split; [exact I|]); split; auto.
  - intros H. injection H as <- <-. cbn. destruct up; cbn; auto 6.
  - intros H. injection H as <- <-. cbn. split; [exact I|]. split; [exact P|lia].
  - destruct P as [Pg Pi]. pose proof (tinv_done t k rs Hrs _ _ _ _ _ _ i p I Pi) as D.
    destruct q as [|l q]; intros H; injection H as <- <-; cbn.
    + split; [|split; [reflexivity|lia]]. apply (tinv_swap t k rs Hrs). apply (tinv_u _ _ _ _ _ _ _ u). exact D.
    + split; [|split; [discriminate|lia]]. apply (tinv_u _ _ _ _ _ _ _ u). exact D.
  - intros H. injection H as <- <-. cbn. split; [exact I|]. split; [intros _; exact P|lia].
Qed.

(** entries that own a position, and those already counted in the batch sizes *)
Definition infl (p : tpc) : list asn :=
  match p with Got u g i p _ | Up u g i p | Done u g i p => assign_from u i p g | _ => [] end.
Definition inflS (p : tpc) : list asn :=
  match p with Up u g i p | Done u g i p => assign_from u i p g | _ => [] end.
Definition ent (th : thr) := tasg th ++ infl (tpcr th).
Definition entS (th : thr) := tasg th ++ inflS (tpcr th).
Definition fb (i : nat) (l : list asn) : list asn := filter (fun a => a_b a =? i) l.

Definition pcB (B : nat) (p : tpc) : Prop :=
  match p with
  | Find _ _ i _ => i <= B
  | Got _ _ i _ _ | Up _ _ i _ | Done _ _ i _ => i < B
  | _ => True
  end.

Record sinv (mx : nat) (s : assigner) (ts : list thr) (tot : nat -> nat) (B : nat) : Prop := {
  s_pos : forall i, Permutation (map a_pos (fb i (flat_map ent ts))) (seq 0 (tot i));
  s_cnt : forall i, cnt s i = tot i \/ (mx <= tot i /\ tot i <= cnt s i);
  s_siz : forall i, siz s i = length (fb i (flat_map entS ts));
  s_low : forall i, i < B -> 0 < tot i;
  s_high : forall i, B <= i -> tot i = 0 /\ cnt s i = 0;
  s_hwm : hwm s <= B;
  s_thr : forall th, In th ts -> tcur th <= B /\ pcB B (tpcr th) }.

Lemma flat_repl {A} (f : thr -> list A) ts1 th th' ts2 new : f th' = f th ++ new ->
  Permutation (flat_map f (ts1 ++ th' :: ts2)) (flat_map f (ts1 ++ th :: ts2) ++ new).
Proof.
  intros E. rewrite !flat_map_app. cbn. rewrite E, <- !app_assoc. do 2 apply Permutation_app_head.
  apply Permutation_app_comm.
Qed.
Lemma flat_same {A} (f : thr -> list A) ts1 th th' ts2 : f th' = f th ->
  flat_map f (ts1 ++ th' :: ts2) = flat_map f (ts1 ++ th :: ts2).
Proof. intros E. rewrite !flat_map_app. cbn. rewrite E. reflexivity. Qed.

Lemma perm_filter {A} (f : A -> bool) l l' : Permutation l l' -> Permutation (filter f l) (filter f l').
Proof.
  induction 1; cbn [filter]; auto.
  - destruct (f x); auto.
  - destruct (f x), (f y); auto. apply perm_swap.
  - etransitivity; eauto.
Qed.
Lemma fb_assign_same u i g : forall p, fb i (assign_from u i p g) = assign_from u i p g.
Proof. unfold fb. induction g as [|v g IH]; intros p; cbn; [reflexivity|]. rewrite Nat.eqb_refl, IH. reflexivity. Qed.
Lemma fb_assign_other u i j g : i <> j -> forall p, fb j (assign_from u i p g) = [].
Proof.
  intros N. unfold fb. induction g as [|v g IH]; intros p; cbn; [reflexivity|].
  destruct (Nat.eqb_spec i j); [contradiction|apply IH].
Qed.
Lemma assign_pos u i g : forall p, map a_pos (assign_from u i p g) = seq p (length g).
Proof. induction g as [|v g IH]; intros p; cbn; [reflexivity|]. rewrite IH. reflexivity. Qed.
Lemma assign_len u i g p : length (assign_from u i p g) = length g.
Proof. rewrite <- (map_length a_pos), assign_pos, seq_length. reflexivity. Qed.

Lemma sinv_same mx s ts1 th th' ts2 tot B s' : sinv mx s (ts1 ++ th :: ts2) tot B ->
  cnt s' = cnt s -> siz s' = siz s -> hwm s' <= B ->
  ent th' = ent th -> entS th' = entS th -> tcur th' <= B -> pcB B (tpcr th') ->
  sinv mx s' (ts1 ++ th' :: ts2) tot B.
Proof.
  intros [H1 H2 H3 H4 H5 H6 H7] Ec Es Eh E1 E2 Hc Hp. split; auto.
  - intros i. rewrite (flat_same ent ts1 th th' ts2 E1). apply H1.
  - intros i. rewrite Ec. apply H2.
  - intros i. rewrite Es, (flat_same entS ts1 th th' ts2 E2). apply H3.
  - intros i Hi. rewrite Ec. auto.
  - intros th2 Hi. apply in_app_or in Hi. destruct Hi as [Hi|[<-|Hi]]; [apply H7; apply in_or_app; auto|auto|].
    apply H7. apply in_or_app. right. right. exact Hi.
Qed.

Lemma step_sys t k mx c m s ts1 th ts2 s' th' tot B : 0 < mx ->
  sinv mx s (ts1 ++ th :: ts2) tot B -> pcok s th -> tstep t k mx c m s th = Some (s', th') ->
  exists tot' B', sinv mx s' (ts1 ++ th' :: ts2) tot' B'.
Proof.
  intros Hmx I P.
  pose proof (s_thr _ _ _ _ _ I th ltac:(apply in_or_app; right; left; reflexivity)) as [Tc Tp].
  destruct th as [q nq cur asg pc]. unfold tstep, pcok in *. cbn [tq tnq tcur tasg tpcr] in *.
  pose proof (s_hwm _ _ _ _ _ I) as Hw.
  destruct pc as [|u g|u g|u g i up|u g i p up|u g i p|u g i p|]; cbn [pcB] in Tp.
  - destruct (pick c q) as [[[|v l] q']|] eqn:Ep; try discriminate.
    destruct (more t k (ct_start t v) (ct_end t v) l) as [g r] eqn:Em. intros H. injection H as <- <-.
    exists tot, B. eapply sinv_same; eauto; reflexivity.
  - intros H. injection H as <- <-. exists tot, B. eapply sinv_same; eauto; cbn.
    + unfold ent. cbn. destruct (cur <=? hwm s); reflexivity.
    + unfold entS. cbn. destruct (cur <=? hwm s); reflexivity.
    + destruct (cur <=? hwm s); cbn; auto.
  - intros H. injection H as <- <-. exists tot, B. eapply sinv_same; eauto; try reflexivity.
  - destruct P as [Pg Pi]. assert (Lg : 0 < length g) by (destruct g; [congruence|cbn; lia]).
    intros H. injection H as <- <-. destruct (Nat.leb_spec mx (cnt s i)) as [Le|Lt].
    + (* rejected *)
      exists tot, B. pose proof I as [H1 H2 H3 H4 H5 H6 H7].
      assert (Hi : i < B).
      { destruct (Nat.lt_ge_cases i B) as [X|X]; [exact X|]. destruct (H5 i X) as [_ X2]. lia. }
      split; cbn [cnt siz hwm]; auto.
      * intros j. rewrite (flat_same ent ts1 (mkThr q nq cur asg (Find u g i up)) _ ts2); [apply H1|reflexivity].
      * intros j. unfold upd. destruct (Nat.eqb_spec j i) as [->|N]; [|apply H2]. destruct (H2 i); lia.
      * intros j. rewrite (flat_same entS ts1 (mkThr q nq cur asg (Find u g i up)) _ ts2); [apply H3|reflexivity].
      * intros j Hj. destruct (H5 j Hj). split; [assumption|]. unfold upd. destruct (Nat.eqb_spec j i); [lia|assumption].
      * intros th2 Hi2. apply in_app_or in Hi2. destruct Hi2 as [Hi2|[<-|Hi2]]; [apply H7; apply in_or_app; auto| |].
        -- cbn. split; [exact Tc|lia].
        -- apply H7. apply in_or_app. right. right. exact Hi2.
    + (* accepted *)
      exists (upd tot i (tot i + length g)), (max B (S i)). pose proof I as [H1 H2 H3 H4 H5 H6 H7].
      assert (Ec : cnt s i = tot i) by (destruct (H2 i); lia).
      assert (En : ent (mkThr q nq cur asg (Got u g i (cnt s i) up)) = ent (mkThr q nq cur asg (Find u g i up)) ++ assign_from u i (cnt s i) g).
      { unfold ent. cbn. rewrite app_nil_r. reflexivity. }
      split; cbn [cnt siz hwm].
      * intros j. pose proof (flat_repl ent ts1 _ _ ts2 _ En) as Pm. unfold fb.
        rewrite (perm_filter _ _ _ Pm), filter_app, map_app. fold (fb j (assign_from u i (cnt s i) g)).
        unfold upd. destruct (Nat.eqb_spec j i) as [->|N].
        -- rewrite fb_assign_same, assign_pos, Ec, seq_app. cbn. apply Permutation_app_tail. apply H1.
        -- rewrite fb_assign_other by auto. cbn. rewrite app_nil_r. apply H1.
      * intros j. unfold upd. destruct (Nat.eqb_spec j i) as [->|N]; [left; lia|apply H2].
      * intros j. rewrite (flat_same entS ts1 (mkThr q nq cur asg (Find u g i up)) _ ts2); [apply H3|reflexivity].
      * intros j Hj. unfold upd. destruct (Nat.eqb_spec j i) as [->|N]; [lia|]. apply H4. lia.
      * intros j Hj. unfold upd. destruct (Nat.eqb_spec j i) as [->|N]; [lia|]. apply H5. lia.
      * lia.
      * assert (Hmono : forall p, pcB B p -> pcB (max B (S i)) p).
        { intros [|? ?|? ?|? ? ? ?|? ? ? ? ?|? ? ? ?|? ? ? ?|]; cbn; try lia. }
        intros th2 Hi2. apply in_app_or in Hi2. destruct Hi2 as [Hi2|[<-|Hi2]].
        -- destruct (H7 th2); [apply in_or_app; auto|]. split; [lia|auto].
        -- cbn. lia.
        -- destruct (H7 th2); [apply in_or_app; right; right; exact Hi2|]. split; [lia|auto].
  - intros H. injection H as <- <-. exists tot, B. pose proof I as [H1 H2 H3 H4 H5 H6 H7].
    set (th' := mkThr q nq cur asg (if up then Up u g i p else Done u g i p)).
    assert (E1 : ent th' = ent (mkThr q nq cur asg (Got u g i p up))) by (unfold ent, th'; cbn; destruct up; reflexivity).
    assert (E2 : entS th' = entS (mkThr q nq cur asg (Got u g i p up)) ++ assign_from u i p g).
    { unfold entS, th'; cbn. rewrite app_nil_r. destruct up; reflexivity. }
    split; cbn [cnt siz hwm]; auto.
    + intros j. rewrite (flat_same ent ts1 _ _ ts2 E1). apply H1.
    + intros j. pose proof (flat_repl entS ts1 _ _ ts2 _ E2) as Pm. unfold fb.
      rewrite (Permutation_length (perm_filter _ _ _ Pm)), filter_app, app_length.
      fold (fb j (assign_from u i p g)). unfold upd. destruct (Nat.eqb_spec j i) as [->|N].
      * rewrite fb_assign_same, assign_len, H3. reflexivity.
      * rewrite fb_assign_other by auto. cbn. rewrite Nat.add_0_r. apply H3.
    + intros th2 Hi2. apply in_app_or in Hi2. destruct Hi2 as [Hi2|[<-|Hi2]]; [apply H7; apply in_or_app; auto| |].
      * unfold th'. cbn. split; [exact Tc|]. destruct up; exact Tp.
      * apply H7. apply in_or_app. right. right. exact Hi2.
  - intros H. injection H as <- <-. exists tot, B. eapply sinv_same; eauto; cbn; auto. lia.
  - destruct q as [|l q]; intros H; injection H as <- <-; exists tot, B; eapply sinv_same; eauto; cbn; auto;
      try (unfold ent, entS; cbn; apply app_nil_r); lia.
  - intros H. injection H as <- <-. exists tot, B. eapply sinv_same; eauto; cbn; auto. lia.
Qed.

Lemma init_sys t k mx dist : sinv mx sh_init (map (thr_init t k) dist) (fun _ => 0) 0.
Proof.
  assert (E : forall f, (forall rs, f (thr_init t k rs) = []) -> flat_map f (map (thr_init t k) dist) = ([] : list asn)).
  { intros f Hf. induction dist as [|rs d IH]; cbn; [reflexivity|]. rewrite Hf, IH. reflexivity. }
  split; cbn; intros; try lia; auto.
  - rewrite E by reflexivity. reflexivity.
  - rewrite E by reflexivity. reflexivity.
  - apply in_map_iff in H. destruct H as (rs & <- & _). cbn. auto.
Qed.

(** ** runs *)
Lemma Forall2_weaken {A C} (R R' : A -> C -> Prop) l l' : (forall a b, R a b -> R' a b) ->
  Forall2 R l l' -> Forall2 R' l l'.
Proof. intros H. induction 1; constructor; auto. Qed.

Lemma brun_ok t k mx dist s ts : 0 < mx -> brun t k mx dist s ts ->
  Permutation (concat dist) (version_roots t k) /\
  Forall2 (fun rs th => thr_ok t k rs th /\ pcok s th) dist ts /\
  exists tot B, sinv mx s ts tot B.
Proof.
  intros Hmx H. induction H as [HP|s ts1 th ts2 c m s' th' H (HP & IH & tot & B & IS) E].
  - split; [exact HP|]. split; [|exists (fun _ => 0), 0; apply init_sys].
    assert (Hr : forall r, In r (concat dist) -> r < ct_n t).
    { intros r Hr. eapply Permutation_in in Hr; [|exact HP]. apply version_roots_in in Hr. tauto. }
    assert (ND : NoDup (concat dist)) by (eapply Permutation_NoDup; [symmetry; exact HP|apply version_roots_nodup]).
    clear HP. induction dist as [|rs d IHd]; cbn; constructor.
    + split; [|intros _; reflexivity]. cbn in Hr, ND. apply (tinv_init t k rs).
      * intros r Hi. apply Hr. apply in_or_app. auto.
      * apply (NoDup_app_remove_r _ _ ND).
    + apply IHd.
      * intros r Hi. apply Hr. cbn. apply in_or_app. auto.
      * cbn in ND. apply (NoDup_app_remove_l _ _ ND).
  - split; [exact HP|].
    apply Forall2_app_inv_r in IH. destruct IH as (d1 & d2 & F1 & F2 & ->).
    inversion F2 as [|rs th0 d2' ts2' [Fok Fpc] F3 E1 E2]; subst.
    assert (Hrs : forall r, In r rs -> ct_ver t r <> Some k).
    { intros r Hr Ev.
      assert (Hi : In r (version_roots t k)).
      { eapply Permutation_in; [exact HP|]. rewrite concat_app. apply in_or_app. right. cbn. apply in_or_app. auto. }
      apply version_roots_in in Hi. destruct Hi as (_ & L & _). rewrite Ev in L. unfold vlt in L. rewrite Nat.ltb_irrefl in L. discriminate. }
    destruct (step_thr t k mx rs c m s th s' th' Hrs Fok Fpc E) as (G1 & G2 & G3).
    assert (Hmono : forall th2, pcok s th2 -> pcok s' th2).
    { intros th2. unfold pcok. destruct (tpcr th2); auto. intros [A1 A2]. split; [exact A1|lia]. }
    split.
    + apply Forall2_app; [|constructor; [auto|]].
      * eapply Forall2_weaken; [|exact F1]. intros a b [X Y]. auto.
      * eapply Forall2_weaken; [|exact F3]. intros a b [X Y]. auto.
    + eapply step_sys; eauto.
Qed.
