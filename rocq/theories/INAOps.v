(** The operations of the incident net array on the pointer level. *)
From Coq Require Import List Arith Lia ZArith Bool Permutation.
From Verif Require Import Base INA INASpec INALoop INARep.
Import ListNotations.
Local Open Scope nat_scope.

Definition ne (s : ina) (w : nat) : bool := negb (i_size s w =? 0).

Lemma NoDup_filter' {A} (f : A -> bool) l : NoDup l -> NoDup (filter f l).
Proof. apply NoDup_filter. Qed.

(** ** generic ring surgery *)
Lemma join_seg nx pv nx' pv' u l1 v l2 :
  seg nx pv u l1 u -> seg nx pv v l2 v -> NoDup ((u :: l1) ++ v :: l2) ->
  (forall y, y <> last l1 u -> y <> last l2 v -> nx' y = nx y) ->
  nx' (last l1 u) = v -> nx' (last l2 v) = u ->
  (forall y, y <> u -> y <> v -> pv' y = pv y) ->
  pv' v = last l1 u -> pv' u = last l2 v ->
  seg nx' pv' u (l1 ++ v :: l2) u.
Proof.
  intros H1 H2 ND Hn E1 E2 Hp E3 E4.
  pose proof (NoDup_app_remove_r _ _ ND) as ND1.
  pose proof (NoDup_app_remove_l _ _ ND) as ND2.
  pose proof (NoDup_app_disj _ _ ND) as D.
  apply seg_app. split.
  - apply (seg_redirect nx pv _ _ _ _ _ u H1 ND1); auto.
    + intros x Hx Hne. apply Hn; [exact Hne|]. intros ->.
      apply (D (last l2 v)); [exact Hx|apply last_in].
    + intros x Hx. apply Hp.
      * intros ->. apply NoDup_cons_iff in ND1. apply ND1. exact Hx.
      * intros ->. apply (D v); [right; exact Hx|left; reflexivity].
  - apply (seg_redirect nx pv _ _ _ _ _ v H2 ND2); auto.
    + intros x Hx Hne. apply Hn; [|exact Hne]. intros ->.
      apply (D (last l1 u)); [apply last_in|exact Hx].
    + intros x Hx. apply Hp.
      * intros ->. apply (D u); [left; reflexivity|right; exact Hx].
      * intros ->. apply NoDup_cons_iff in ND2. apply ND2. exact Hx.
Qed.

Lemma cut_seg nx pv nx' pv' u l1 m l2 :
  seg nx pv u (l1 ++ m ++ l2) u -> NoDup (u :: l1 ++ m ++ l2) ->
  (forall y, In y (u :: l1 ++ l2) -> y <> last l1 u -> nx' y = nx y) ->
  nx' (last l1 u) = hd u l2 ->
  (forall y, In y (u :: l1 ++ l2) -> y <> hd u l2 -> pv' y = pv y) ->
  pv' (hd u l2) = last l1 u ->
  seg nx' pv' u (l1 ++ l2) u.
Proof.
  intros H ND Hn E1 Hp E2.
  pose proof ND as NDc. apply NoDup_cons_iff in NDc. destruct NDc as [Hu ND'].
  assert (ND1 : NoDup (u :: l1)).
  { apply NoDup_cons; [|apply (NoDup_app_remove_r _ _ ND')].
    intros Hi. apply Hu. apply in_or_app. auto. }
  assert (Hpre : exists b, seg nx pv u l1 b).
  { destruct (m ++ l2) as [|y q].
    - rewrite app_nil_r in H. eauto.
    - apply seg_app in H. exists y. apply H. }
  destruct Hpre as [b Hpre].
  destruct l2 as [|y l2]; cbn [hd] in *.
  - rewrite app_nil_r in *. apply (seg_redirect nx pv _ _ _ _ _ b Hpre ND1); auto.
    intros x Hx. apply Hp; [right; exact Hx|].
    intros ->. apply NoDup_cons_iff in ND1. apply ND1. exact Hx.
  - rewrite app_assoc in H. apply seg_app in H. destruct H as [_ Hpost].
    rewrite app_assoc in ND'.
    pose proof (NoDup_app_disj _ _ ND') as D.
    pose proof (NoDup_app_remove_l _ _ ND') as ND2.
    apply seg_app. split.
    + apply (seg_redirect nx pv _ _ _ _ _ b Hpre ND1); auto.
      * intros x Hx. apply Hn. destruct Hx as [->|Hx]; [left; reflexivity|].
        right. apply in_or_app. left. exact Hx.
      * intros x Hx. apply Hp; [right; apply in_or_app; left; exact Hx|].
        intros ->. apply (D y); [apply in_or_app; left; exact Hx|left; reflexivity].
    + apply (seg_ext nx pv); auto.
      * intros x Hx. apply Hn; [right; apply in_or_app; right; exact Hx|].
        intros ->. destruct (last_in l1 u) as [E|Hi].
        -- apply Hu. rewrite E. apply in_or_app. right. apply in_or_app. right. exact Hx.
        -- apply (D (last l1 u)); [apply in_or_app; left; exact Hi|exact Hx].
      * intros x Hx. apply Hp.
        -- destruct Hx as [Hx|Hx]; [|left; symmetry; exact Hx].
           right. apply in_or_app. right. right. exact Hx.
        -- intros ->. destruct Hx as [Hx|Hx].
           ++ apply NoDup_cons_iff in ND2. apply ND2. exact Hx.
           ++ apply Hu. rewrite <- Hx. apply in_or_app. right. apply in_or_app. right. left. reflexivity.
Qed.

Lemma ring_next nx pv u l d c td : seg nx pv u l u -> u :: l = d ++ c :: td ->
  nx c = hd u td.
Proof.
  intros H E. destruct d as [|y d]; cbn in E; injection E as E1 E2; subst.
  - destruct td; cbn in *; apply H.
  - apply seg_app in H. destruct H as [_ H]. destruct td; cbn in *; apply H.
Qed.
Lemma ring_prev nx pv u l d c td : seg nx pv u l u -> u :: l = (u :: d) ++ c :: td ->
  pv c = last d u.
Proof.
  intros H E. cbn in E. injection E as E. subst. apply seg_app in H. destruct H as [H _].
  apply seg_last in H. apply H.
Qed.

(** ** removeEmptyIncidentNetList *)
Lemma removeEmpty_fields s c :
  let s' := removeEmptyIncidentNetList s c in
  i_prev s' = i_prev s /\ i_next s' = i_next s /\ i_tail s' = i_tail s /\
  i_size s' = i_size s /\ i_deg s' = i_deg s /\ i_ver s' = i_ver s /\
  i_head s' = i_head s /\ i_ent s' = i_ent s /\
  i_itn s' = upd (upd (i_itn s) (i_itp s c) (i_itn s c)) c c /\
  i_itp s' = upd (upd (i_itp s) (i_itn s c) (i_itp s c)) c c.
Proof.
  cbn. repeat split. unfold upd at 3.
  destruct (c =? i_itp s c) eqn:E; reflexivity.
Qed.

Lemma removeEmpty_ring s c u l1 l2 :
  seg (i_itn s) (i_itp s) u (l1 ++ c :: l2) u -> NoDup (u :: l1 ++ c :: l2) ->
  let s' := removeEmptyIncidentNetList s c in
  seg (i_itn s') (i_itp s') u (l1 ++ l2) u /\
  i_itn s' c = c /\ i_itp s' c = c /\
  (forall w, ~ In w (u :: l1 ++ c :: l2) -> i_itn s' w = i_itn s w /\ i_itp s' w = i_itp s w).
Proof.
  intros H ND s'. destruct (removeEmpty_fields s c) as (_ & _ & _ & _ & _ & _ & _ & _ & En & Ep).
  fold s' in En, Ep. rewrite En, Ep.
  assert (Epc : i_itp s c = last l1 u).
  { apply seg_app in H. destruct H as [H _]. apply seg_last in H. apply H. }
  assert (Enc : i_itn s c = hd u l2).
  { apply (ring_next _ _ _ _ (u :: l1) c l2 H). reflexivity. }
  assert (Hc : ~ In c (u :: l1 ++ l2)).
  { apply NoDup_cons_iff in ND. destruct ND as [Hu ND]. intros [->|Hi].
    - apply Hu. apply in_or_app. right. left. reflexivity.
    - apply NoDup_remove_2 in ND. contradiction. }
  assert (Hl : In (last l1 u) (u :: l1 ++ l2)).
  { destruct (last_in l1 u) as [E|Hi]; [left; exact E|right; apply in_or_app; left; exact Hi]. }
  assert (Hh : In (hd u l2) (u :: l1 ++ l2)).
  { destruct l2 as [|y l2]; [left; reflexivity|]. cbn. right. apply in_or_app. right. left. reflexivity. }
  rewrite Epc, Enc. split; [|split; [|split]].
  - apply (seg_cut (i_itn s) (i_itp s) u l1 c l2); auto; rewrite ?Enc.
    + intros y H1 H2. rewrite !upd_other by auto. reflexivity.
    + rewrite upd_other by (intros E; apply Hc; rewrite <- E; exact Hl). apply upd_same.
    + intros y H1 H2. rewrite !upd_other by auto. reflexivity.
    + rewrite upd_other by (intros E; apply Hc; rewrite <- E; exact Hh). apply upd_same.
  - apply upd_same.
  - apply upd_same.
  - intros w Hw.
    assert (w <> c) by (intros ->; apply Hw; right; apply in_or_app; right; left; reflexivity).
    assert (Hs : forall z, In z (u :: l1 ++ l2) -> w <> z).
    { intros z Hz ->. apply Hw. destruct Hz as [->|Hz]; [left; reflexivity|]. right.
      apply in_app_or in Hz. apply in_or_app. destruct Hz; [left|right; right]; assumption. }
    rewrite !upd_other; auto.
Qed.

Lemma removeEmpty_self s c : i_itn s c = c -> i_itp s c = c ->
  let s' := removeEmptyIncidentNetList s c in
  (forall w, i_itn s' w = i_itn s w) /\ (forall w, i_itp s' w = i_itp s w).
Proof.
  intros E1 E2 s'. destruct (removeEmpty_fields s c) as (_ & _ & _ & _ & _ & _ & _ & _ & En & Ep).
  fold s' in En, Ep. rewrite En, Ep, E1, E2.
  split; intros w; unfold upd; destruct (w =? c) eqn:E; auto; apply Nat.eqb_eq in E; congruence.
Qed.

(** ** removeIncidentNets *)
Lemma rem_loop_le R nv n p a tl : length a = n -> length p = 0 -> forall l k,
  rem_loop R nv n 0 (p ++ a ++ tl) 0 = (l, k) -> k <= n.
Proof.
  intros L Lp l k E. destruct p; [|discriminate].
  destruct (rem_loop_spec R nv n [] a tl 0 L) as (kp & rv & E' & _ & Pr).
  cbn in E'. cbn in E. rewrite E in E'. injection E' as _ ->. cbn.
  apply Permutation_length in Pr. rewrite Pr.
  pose proof (filter_split_length (fun en => R (fst en)) a) as X. rewrite <- L, <- X. apply Nat.le_add_l.
Qed.

Record rm_inv (s0 s : ina) (R : nat -> bool) (u : nat) (l done : list nat) : Prop := {
  ri_next : i_next s = i_next s0;
  ri_prev : i_prev s = i_prev s0;
  ri_tail : i_tail s = i_tail s0;
  ri_head : i_head s = i_head s0;
  ri_todo : forall w, ~ In w done -> i_size s w = i_size s0 w /\ i_ver s w = i_ver s0 w /\ i_ent s w = i_ent s0 w;
  ri_done : forall w, In w done -> i_ver s w = (i_ver s0 w + 1)%Z /\
    exists k, rem_loop R (i_ver s0 w + 1) (i_size s0 w) 0 (i_ent s0 w) 0 = (i_ent s w, k) /\
              i_size s w = i_size s0 w - k;
  ri_deg : forall w, w <> u -> i_deg s w = i_deg s0 w;
  ri_degu : i_deg s u = (i_deg s0 u - sumZ (fun w => Z.of_nat (i_size s0 w) - Z.of_nat (i_size s w)) done)%Z;
  ri_it : seg (i_itn s) (i_itp s) u (filter (ne s) l) u;
  ri_empty : forall w, In w l -> i_size s w = 0 -> i_itn s w = w /\ i_itp s w = w;
  ri_frame : forall w, ~ In w (u :: l) -> i_itn s w = i_itn s0 w /\ i_itp s w = i_itp s0 w }.

Lemma sumZ_ext' {A} (f g : A -> Z) l : (forall x, In x l -> f x = g x) -> sumZ f l = sumZ g l.
Proof. induction l as [|x l IH]; cbn; intros H; [reflexivity|]. rewrite H, IH; auto. Qed.
Lemma sumZ_snoc {A} (f : A -> Z) l x : sumZ f (l ++ [x]) = (sumZ f l + f x)%Z.
Proof. induction l as [|y l IH]; cbn; [lia|]. rewrite IH. lia. Qed.

Lemma filter_in_split {A} (f : A -> bool) (l : list A) x : In x l -> NoDup l ->
  exists l1 l2, l = l1 ++ x :: l2 /\ ~ In x l1 /\ ~ In x l2.
Proof.
  intros Hi ND. apply in_split in Hi. destruct Hi as (l1 & l2 & ->).
  exists l1, l2. apply NoDup_remove_2 in ND. split; [reflexivity|].
  split; intros H; apply ND; apply in_or_app; auto.
Qed.

Lemma rm_step s0 s R u l done cur todo :
  seg (i_next s0) (i_prev s0) u l u -> NoDup (u :: l) -> u :: l = done ++ cur :: todo ->
  (forall w, In w (u :: l) -> i_size s0 w <= length (i_ent s0 w)) ->
  rm_inv s0 s R u l done ->
  let nv := (i_ver s cur + 1)%Z in
  let '(l', k) := rem_loop R nv (i_size s cur) 0 (i_ent s cur) 0 in
  let s1 := set_deg (set_size (set_ent (set_ver s cur nv) cur l')
                       cur (i_size s cur - k)) u (i_deg s u - Z.of_nat k)%Z in
  let s2 := if (i_size s1 cur =? 0) && negb (cur =? u)
            then removeEmptyIncidentNetList s1 cur else s1 in
  rm_inv s0 s2 R u l (done ++ [cur]).
Proof.
  intros Hring ND E Hlen I nv.
  assert (NDs : NoDup (done ++ cur :: todo)) by (rewrite <- E; exact ND).
  assert (Hcd : ~ In cur done).
  { intros Hi. apply (NoDup_app_disj _ _ NDs cur); [exact Hi|left; reflexivity]. }
  assert (Hcm : In cur (u :: l)).
  { rewrite E. apply in_or_app. right. left. reflexivity. }
  destruct (ri_todo _ _ _ _ _ _ I cur Hcd) as (Es & Ev & Ee).
  destruct (rem_loop R nv (i_size s cur) 0 (i_ent s cur) 0) as [l' k] eqn:EL.
  assert (Hk : k <= i_size s cur).
  { apply (rem_loop_le R nv _ [] (firstn (i_size s cur) (i_ent s cur)) (skipn (i_size s cur) (i_ent s cur))) with (l := l').
    - rewrite firstn_length, Es, Ee. specialize (Hlen cur Hcm). lia.
    - reflexivity.
    - cbn [app]. rewrite firstn_skipn. exact EL. }
  intros s1 s2.
  (* fields of s1 that removeEmpty does not touch *)
  assert (F : i_prev s2 = i_prev s /\ i_next s2 = i_next s /\ i_tail s2 = i_tail s /\ i_head s2 = i_head s /\
              i_size s2 = upd (i_size s) cur (i_size s cur - k) /\
              i_deg s2 = upd (i_deg s) u (i_deg s u - Z.of_nat k)%Z /\
              i_ver s2 = upd (i_ver s) cur nv /\ i_ent s2 = upd (i_ent s) cur l').
  { unfold s2. destruct ((i_size s1 cur =? 0) && negb (cur =? u)).
    - destruct (removeEmpty_fields s1 cur) as (F1 & F2 & F3 & F4 & F5 & F6 & F7 & F8 & _).
      rewrite F1, F2, F3, F4, F5, F6, F7, F8. cbn. repeat split.
    - cbn. repeat split. }
  destruct F as (Fp & Fn & Ft & Fh & Fs & Fd & Fv & Fe).
  assert (Hsz : forall w, w <> cur -> i_size s2 w = i_size s w)
    by (intros w Hw; rewrite Fs, upd_other; auto).
  assert (Hszc : i_size s2 cur = i_size s cur - k) by (rewrite Fs, upd_same; reflexivity).
  destruct I as [In1 Ip It Ih Itodo Idone Id Idu Iit Iem Ifr].
  assert (NDl : NoDup l) by (apply NoDup_cons_iff in ND; apply ND).
  assert (Hul : ~ In u l) by (apply NoDup_cons_iff in ND; apply ND).
  assert (Hit : seg (i_itn s2) (i_itp s2) u (filter (ne s2) l) u /\
     (forall w, In w l -> i_size s2 w = 0 -> i_itn s2 w = w /\ i_itp s2 w = w) /\
     (forall w, ~ In w (u :: l) -> i_itn s2 w = i_itn s w /\ i_itp s2 w = i_itp s w)).
  { assert (E1 : i_size s1 cur = i_size s cur - k) by (cbn; apply upd_same).
    unfold s2 in *. rewrite E1 in *.
    destruct (Nat.eqb_spec cur u) as [->|Hcu]; cbn [negb] in *.
    - rewrite andb_false_r in *. cbn [i_itn i_itp] in *. cbn.
      split; [|split].
      + replace (filter (ne s1) l) with (filter (ne s) l); [exact Iit|].
        apply filter_ext_in. intros w Hw. unfold ne. rewrite Hsz; [reflexivity|].
        intros ->. contradiction.
      + intros w Hw Hz. apply Iem; [exact Hw|]. rewrite <- Hsz; [exact Hz|]. intros ->. contradiction.
      + auto.
    - assert (Hcl : In cur l) by (destruct Hcm as [->|Hcm]; [contradiction|exact Hcm]).
      rewrite andb_true_r in *.
      destruct (Nat.eqb_spec (i_size s cur - k) 0) as [Hz|Hnz].
      + (* cur becomes (or stays) empty *)
        destruct (filter_in_split (fun _ => true) l cur Hcl NDl) as (l1 & l2 & -> & Hn1 & Hn2).
        assert (Ef : filter (ne (removeEmptyIncidentNetList s1 cur)) (l1 ++ cur :: l2)
                     = filter (ne s) l1 ++ filter (ne s) l2).
        { rewrite filter_app. cbn [filter]. unfold ne at 2. rewrite Hszc, Hz. cbn.
          f_equal; apply filter_ext_in; intros w Hw; unfold ne; rewrite Hsz; auto; intros ->; contradiction. }
        rewrite Ef. rewrite filter_app in Iit. cbn [filter] in Iit.
        unfold ne at 2 in Iit. destruct (Nat.eqb_spec (i_size s cur) 0) as [Hz0|Hnz0]; cbn [negb] in Iit.
        * (* was empty already *)
          destruct (Iem cur Hcl Hz0) as [A B].
          destruct (removeEmpty_self s1 cur A B) as [X Y].
          split; [|split].
          -- apply (seg_ext (i_itn s) (i_itp s)); auto.
             ++ intros w _. rewrite X. reflexivity.
             ++ intros w _. rewrite Y. reflexivity.
          -- intros w Hw Hsw. rewrite X, Y. cbn.
             destruct (Nat.eq_dec w cur) as [->|Hwc]; [auto|].
             apply Iem; [exact Hw|]. rewrite <- Hsz; auto.
          -- intros w _. rewrite X, Y. auto.
        * assert (NDf : NoDup (u :: filter (ne s) l1 ++ cur :: filter (ne s) l2)).
          { apply NoDup_cons.
            - intros Hi. apply Hul. apply in_app_or in Hi. apply in_or_app.
              destruct Hi as [Hi|[->|Hi]]; [left|right; left; reflexivity|right; right];
                apply filter_In in Hi; apply Hi.
            - replace (filter (ne s) l1 ++ cur :: filter (ne s) l2) with (filter (ne s) (l1 ++ cur :: l2)).
              + apply NoDup_filter. exact NDl.
              + rewrite filter_app. cbn [filter]. unfold ne at 2.
                destruct (Nat.eqb_spec (i_size s cur) 0); [contradiction|reflexivity]. }
          destruct (removeEmpty_ring s1 cur u _ _ Iit NDf) as (X1 & X2 & X3 & X4).
          split; [exact X1|]. split.
          -- intros w Hw Hsw. destruct (Nat.eq_dec w cur) as [->|Hwc]; [auto|].
             assert (Hsw' : i_size s w = 0) by (rewrite <- Hsz; auto).
             destruct (X4 w) as [Y1 Y2].
             { intros [->|Hi]; [contradiction|]. apply in_app_or in Hi.
               destruct Hi as [Hi|[Hi|Hi]]; [|congruence|]; apply filter_In in Hi; destruct Hi as [_ Hi];
                 unfold ne in Hi; rewrite Hsw' in Hi; discriminate. }
             rewrite Y1, Y2. apply Iem; auto.
          -- intros w Hw. apply X4. intros [->|Hi]; [apply Hw; left; reflexivity|].
             apply Hw. right. apply in_app_or in Hi. apply in_or_app.
             destruct Hi as [Hi|[->|Hi]]; [left|right; left; reflexivity|right; right];
               apply filter_In in Hi; apply Hi.
      + (* stays non-empty *)
        split; [|split].
        * replace (filter (ne s1) l) with (filter (ne s) l); [exact Iit|].
          apply filter_ext_in. intros w Hw. unfold ne.
          destruct (Nat.eq_dec w cur) as [->|Hwc]; [|rewrite Hsz; auto].
          rewrite Hszc. destruct (Nat.eqb_spec (i_size s cur) 0), (Nat.eqb_spec (i_size s cur - k) 0); auto; lia.
        * intros w Hw Hsw. destruct (Nat.eq_dec w cur) as [->|Hwc]; [lia|].
          apply Iem; [exact Hw|]. rewrite <- Hsz; auto.
        * auto. }
  destruct Hit as (Hit1 & Hit2 & Hit3).
  split.
  - congruence.
  - congruence.
  - congruence.
  - congruence.
  - intros w Hw.
    assert (w <> cur) by (intros ->; apply Hw; apply in_or_app; right; left; reflexivity).
    assert (~ In w done) by (intros Hi; apply Hw; apply in_or_app; left; exact Hi).
    rewrite Hsz, Fv, Fe, !upd_other by auto. apply Itodo. assumption.
  - intros w Hw. apply in_app_or in Hw. destruct Hw as [Hw|[<-|[]]].
    + assert (w <> cur) by (intros ->; contradiction).
      rewrite Hsz, Fv, Fe, !upd_other by auto. apply Idone. exact Hw.
    + rewrite Hszc, Fv, Fe, !upd_same. unfold nv. rewrite Ev. split; [reflexivity|].
      exists k. rewrite <- Es. split; [|reflexivity]. rewrite <- Ev, <- Ee. exact EL.
  - intros w Hw. rewrite Fd, upd_other by auto. apply Id. exact Hw.
  - rewrite Fd, upd_same, sumZ_snoc, Hszc, Idu, <- Es.
    rewrite (sumZ_ext' (fun w => Z.of_nat (i_size s0 w) - Z.of_nat (i_size s2 w))%Z
                       (fun w => Z.of_nat (i_size s0 w) - Z.of_nat (i_size s w))%Z).
    + lia.
    + intros w Hw. rewrite Hsz; [reflexivity|]. intros ->. contradiction.
  - exact Hit1.
  - exact Hit2.
  - intros w Hw. destruct (Hit3 w Hw) as [A B]. rewrite A, B. apply Ifr. exact Hw.
Qed.

Lemma rm_chain_ok s0 R u l : seg (i_next s0) (i_prev s0) u l u -> NoDup (u :: l) ->
  (forall w, In w (u :: l) -> i_size s0 w <= length (i_ent s0 w)) ->
  forall todo fuel s done cur, u :: l = done ++ cur :: todo -> length todo <= fuel ->
  rm_inv s0 s R u l done ->
  rm_inv s0 (rm_chain fuel s u cur R) R u l (u :: l).
Proof.
  intros Hring ND Hlen. induction todo as [|y todo IH]; intros fuel s done cur E Hf I.
  - pose proof (rm_step s0 s R u l done cur [] Hring ND E Hlen I) as St.
    cbv zeta in St.
    assert (X : exists s2, rm_inv s0 s2 R u l (done ++ [cur]) /\
              rm_chain fuel s u cur R = match fuel with 0 => s2 | S f => if i_next s2 cur =? u then s2 else rm_chain f s2 u (i_next s2 cur) R end).
    { destruct fuel; cbn [rm_chain];
      destruct (rem_loop R (i_ver s cur + 1) (i_size s cur) 0 (i_ent s cur) 0) as [l' k];
      (eexists; split; [exact St|reflexivity]). }
    destruct X as (s2 & St2 & ->).
    assert (En : i_next s2 cur = u).
    { rewrite (ri_next _ _ _ _ _ _ St2). apply (ring_next _ _ _ _ _ _ _ Hring E). }
    rewrite En, Nat.eqb_refl. rewrite E. destruct fuel; exact St2.
  - pose proof (rm_step s0 s R u l done cur (y :: todo) Hring ND E Hlen I) as St.
    cbv zeta in St.
    destruct fuel as [|f]; [cbn in Hf; lia|].
    assert (X : exists s2, rm_inv s0 s2 R u l (done ++ [cur]) /\
              rm_chain (S f) s u cur R = if i_next s2 cur =? u then s2 else rm_chain f s2 u (i_next s2 cur) R).
    { cbn [rm_chain];
      destruct (rem_loop R (i_ver s cur + 1) (i_size s cur) 0 (i_ent s cur) 0) as [l' k];
      (eexists; split; [exact St|reflexivity]). }
    destruct X as (s2 & St2 & ->).
    assert (En : i_next s2 cur = y).
    { rewrite (ri_next _ _ _ _ _ _ St2). apply (ring_next _ _ _ _ _ _ _ Hring E). }
    rewrite En.
    assert (Hyu : y <> u).
    { intros ->. destruct done as [|z done]; cbn in E; injection E as E1 E2; subst.
      - apply NoDup_cons_iff in ND. apply ND. left. reflexivity.
      - apply NoDup_cons_iff in ND. apply ND. apply in_or_app. right. right. left. reflexivity. }
    destruct (Nat.eqb_spec y u); [contradiction|].
    apply (IH f s2 (done ++ [cur]) y).
    + rewrite <- app_assoc. exact E.
    + cbn in Hf. lia.
    + exact St2.
Qed.
