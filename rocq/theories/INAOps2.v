(** append and splice *)
From Coq Require Import List Arith Lia ZArith Bool Permutation.
From Verif Require Import Base INA INASpec INALoop INARep INAOps.
Import ListNotations.
Local Open Scope nat_scope.

Lemma in_filter_ring {f : nat -> bool} {u l x} : In x (u :: filter f l) -> In x (u :: l).
Proof. intros [->|H]; [left; reflexivity|]. right. apply filter_In in H. apply H. Qed.


Lemma NoDup_app_i {A} (l1 l2 : list A) : NoDup l1 -> NoDup l2 ->
  (forall x, In x l1 -> In x l2 -> False) -> NoDup (l1 ++ l2).
Proof.
  induction l1 as [|x l1 IH]; cbn; intros H1 H2 D; [exact H2|].
  apply NoDup_cons_iff in H1. destruct H1 as [Hx H1]. apply NoDup_cons.
  - intros Hi. apply in_app_or in Hi. destruct Hi as [Hi|Hi]; [contradiction|]. apply (D x); auto.
  - apply IH; auto. intros y Ha Hb. apply (D y); auto.
Qed.
Lemma NoDup_cons_filter (h : nat -> bool) w l : NoDup (w :: l) -> NoDup (w :: filter h l).
Proof.
  intros H. apply NoDup_cons_iff in H. destruct H as [H1 H2].
  apply NoDup_cons; [|apply NoDup_filter; exact H2].
  intros Hi. apply H1. apply filter_In in Hi. apply Hi.
Qed.
Lemma NoDup_filter_ring (f g : nat -> bool) u l1 v l2 : NoDup ((u :: l1) ++ v :: l2) ->
  NoDup ((u :: filter f l1) ++ v :: filter g l2).
Proof.
  intros ND. apply NoDup_app_i.
  - apply NoDup_cons_filter. apply (NoDup_app_remove_r _ _ ND).
  - apply NoDup_cons_filter. apply (NoDup_app_remove_l _ _ ND).
  - intros x Ha Hb. apply (NoDup_app_disj _ _ ND x); eapply in_filter_ring; eassumption.
Qed.

Record app_ok (s s' : ina) (u : nat) (l1 : list nat) (v : nat) (l2 : list nat) : Prop := {
  ao_ring : seg (i_next s') (i_prev s') u (l1 ++ v :: l2) u;
  ao_it : seg (i_itn s') (i_itp s') u (filter (ne s') (l1 ++ v :: l2)) u;
  ao_empty : forall w, In w (l1 ++ v :: l2) -> i_size s' w = 0 -> i_itn s' w = w /\ i_itp s' w = w;
  ao_size : i_size s' = i_size s;
  ao_ver : i_ver s' = i_ver s;
  ao_ent : i_ent s' = i_ent s;
  ao_tail : i_tail s' = upd (i_tail s) v (last l2 v);
  ao_head : i_head s' = upd (i_head s) v false;
  ao_deg : i_deg s' = upd (i_deg s) u (i_deg s u + i_deg s v)%Z;
  ao_frame : forall w, ~ In w ((u :: l1) ++ v :: l2) ->
    i_next s' w = i_next s w /\ i_prev s' w = i_prev s w /\
    i_itn s' w = i_itn s w /\ i_itp s' w = i_itp s w }.

Lemma append_ok s u l1 v l2 :
  seg (i_next s) (i_prev s) u l1 u -> seg (i_next s) (i_prev s) v l2 v ->
  seg (i_itn s) (i_itp s) u (filter (ne s) l1) u -> seg (i_itn s) (i_itp s) v (filter (ne s) l2) v ->
  (forall w, In w l1 -> i_size s w = 0 -> i_itn s w = w /\ i_itp s w = w) ->
  (forall w, In w l2 -> i_size s w = 0 -> i_itn s w = w /\ i_itp s w = w) ->
  NoDup ((u :: l1) ++ v :: l2) ->
  app_ok s (append_step s u v) u l1 v l2.
Proof.
  intros H1 H2 I1 I2 Em1 Em2 ND.
  set (L1 := filter (ne s) l1) in *. set (L2 := filter (ne s) l2) in *.
  pose proof (NoDup_filter_ring (ne s) (ne s) u l1 v l2 ND) as NDL. fold L1 L2 in NDL.
  destruct (seg_last _ _ _ _ _ H1) as [A1 A2]. destruct (seg_last _ _ _ _ _ H2) as [B1 B2].
  destruct (seg_last _ _ _ _ _ I1) as [C1 C2]. destruct (seg_last _ _ _ _ _ I2) as [D1 D2].
  pose proof (NoDup_app_disj _ _ ND) as D. pose proof (NoDup_app_disj _ _ NDL) as DL.
  assert (Huv : u <> v) by (intros ->; apply (D v); left; reflexivity).
  assert (Hll : last l1 u <> last l2 v)
    by (intros E; apply (D (last l1 u)); [apply last_in|rewrite E; apply last_in]).
  assert (HLL : last L1 u <> last L2 v)
    by (intros E; apply (DL (last L1 u)); [apply last_in|rewrite E; apply last_in]).
  assert (Hsub1 : forall x, In x (u :: L1) -> In x (u :: l1)) by (intros x; apply in_filter_ring).
  assert (Hsub2 : forall x, In x (v :: L2) -> In x (v :: l2)) by (intros x; apply in_filter_ring).
  (* the state before the removal of an empty list *)
  set (s1 := mkIna (upd (upd (i_prev s) u (last l2 v)) v (last l1 u))
                   (upd (upd (i_next s) (last l1 u) v) (last l2 v) u)
                   (upd (upd (i_itp s) u (last L2 v)) v (last L1 u))
                   (upd (upd (i_itn s) (last L1 u) v) (last L2 v) u)
                   (upd (i_tail s) v (last l2 v)) (i_size s) (i_deg s) (i_ver s)
                   (upd (i_head s) v false) (i_ent s)).
  assert (Es : append_step s u v =
    (let s2 := if i_size s v =? 0 then removeEmptyIncidentNetList s1 v else s1 in
     set_deg s2 u (i_deg s2 u + i_deg s2 v)%Z)).
  { unfold append_step, append_lists. cbn zeta. cbn [set_prev set_next set_itp set_itn set_tail set_head i_prev i_next i_itp i_itn i_tail i_size i_deg i_ver i_head i_ent].
    rewrite A2, B2, C2, D2. reflexivity. }
  rewrite Es. clear Es. cbn zeta.
  assert (R1 : seg (i_next s1) (i_prev s1) u (l1 ++ v :: l2) u).
  { apply (join_seg (i_next s) (i_prev s)); auto; cbn.
    - intros y Ha Hb. rewrite !upd_other by auto. reflexivity.
    - rewrite upd_other by auto. apply upd_same.
    - apply upd_same.
    - intros y Ha Hb. rewrite !upd_other by auto. reflexivity.
    - apply upd_same.
    - rewrite upd_other by auto. apply upd_same. }
  assert (R2 : seg (i_itn s1) (i_itp s1) u (L1 ++ v :: L2) u).
  { apply (join_seg (i_itn s) (i_itp s)); auto; cbn.
    - intros y Ha Hb. rewrite !upd_other by auto. reflexivity.
    - rewrite upd_other by auto. apply upd_same.
    - apply upd_same.
    - intros y Ha Hb. rewrite !upd_other by auto. reflexivity.
    - apply upd_same.
    - rewrite upd_other by auto. apply upd_same. }
  assert (Fr1 : forall w, ~ In w ((u :: l1) ++ v :: l2) ->
    i_next s1 w = i_next s w /\ i_prev s1 w = i_prev s w /\
    i_itn s1 w = i_itn s w /\ i_itp s1 w = i_itp s w).
  { intros w Hw.
    assert (G1 : forall z, In z (u :: l1) -> w <> z)
      by (intros z Hz ->; apply Hw; apply in_or_app; left; exact Hz).
    assert (G2 : forall z, In z (v :: l2) -> w <> z)
      by (intros z Hz ->; apply Hw; apply in_or_app; right; exact Hz).
    assert (w <> u) by (apply G1; left; reflexivity).
    assert (w <> v) by (apply G2; left; reflexivity).
    assert (w <> last l1 u) by (apply G1, last_in).
    assert (w <> last l2 v) by (apply G2, last_in).
    assert (w <> last L1 u) by (apply G1, Hsub1, last_in).
    assert (w <> last L2 v) by (apply G2, Hsub2, last_in).
    cbn. rewrite !upd_other by auto. auto. }
  assert (Em : forall w, In w (l1 ++ l2) -> i_size s w = 0 -> i_itn s1 w = w /\ i_itp s1 w = w).
  { intros w Hw Hz.
    assert (Hwl : ~ In w (u :: L1) /\ ~ In w (v :: L2)).
    { apply in_app_or in Hw. split; intros [->|Hi].
      - destruct Hw as [Hw|Hw].
        + pose proof (NoDup_app_remove_r _ _ ND) as X. apply NoDup_cons_iff in X. apply X. exact Hw.
        + apply (D w); [left; reflexivity|right; exact Hw].
      - unfold L1 in Hi. apply filter_In in Hi. destruct Hi as [_ Hi]. unfold ne in Hi. rewrite Hz in Hi. discriminate.
      - destruct Hw as [Hw|Hw].
        + apply (D w); [right; exact Hw|left; reflexivity].
        + pose proof (NoDup_app_remove_l _ _ ND) as X. apply NoDup_cons_iff in X. apply X. exact Hw.
      - unfold L2 in Hi. apply filter_In in Hi. destruct Hi as [_ Hi]. unfold ne in Hi. rewrite Hz in Hi. discriminate. }
    destruct Hwl as [Ha Hb].
    assert (w <> u) by (intros ->; apply Ha; left; reflexivity).
    assert (w <> v) by (intros ->; apply Hb; left; reflexivity).
    assert (w <> last L1 u) by (intros ->; apply Ha, last_in).
    assert (w <> last L2 v) by (intros ->; apply Hb, last_in).
    cbn. rewrite !upd_other by auto.
    apply in_app_or in Hw. destruct Hw; auto. }
  assert (Hf : forall s', i_size s' = i_size s ->
    filter (ne s') (l1 ++ v :: l2) = L1 ++ (if i_size s v =? 0 then L2 else v :: L2)).
  { intros s' E. rewrite filter_app. cbn [filter]. unfold ne at 2. rewrite E.
    unfold L1, L2.
    assert (Ef : forall q, filter (ne s') q = filter (ne s) q)
      by (intros q; apply filter_ext; intros w; unfold ne; rewrite E; reflexivity).
    rewrite !Ef. destruct (i_size s v =? 0); reflexivity. }
  destruct (Nat.eqb_spec (i_size s v) 0) as [Hz|Hnz].
  - destruct (removeEmpty_fields s1 v) as (F1 & F2 & F3 & F4 & F5 & F6 & F7 & F8 & _).
    destruct (removeEmpty_ring s1 v u L1 L2 R2 NDL) as (X1 & X2 & X3 & X4).
    set (s2 := removeEmptyIncidentNetList s1 v) in *.
    assert (Q : forall w, ~ In w (u :: L1 ++ v :: L2) -> In w (u :: l1 ++ v :: l2) ->
       i_size s w = 0 -> w <> v -> i_itn s2 w = w /\ i_itp s2 w = w).
    { intros w Hw Hi Hsz Hwv. destruct (X4 w Hw) as [Y1 Y2]. rewrite Y1, Y2. apply Em; [|exact Hsz].
      destruct Hi as [->|Hi]; [exfalso; apply Hw; left; reflexivity|].
      apply in_app_or in Hi. apply in_or_app. destruct Hi as [Hi|[Hi|Hi]]; auto. congruence. }
    split; cbn [set_deg i_prev i_next i_itp i_itn i_tail i_size i_deg i_ver i_head i_ent].
    + rewrite F1, F2. exact R1.
    + rewrite Hf by exact F4. destruct (Nat.eqb_spec (i_size s v) 0); [exact X1|contradiction].
    + rewrite F4. cbn [i_size s1]. intros w Hw Hsz.
      destruct (Nat.eq_dec w v) as [->|Hwv]; [auto|].
      apply Q; auto; [|right; exact Hw].
      intros [->|Hi].
      * pose proof ND as X. cbn in X. apply NoDup_cons_iff in X. apply X. exact Hw.
      * apply in_app_or in Hi. destruct Hi as [Hi|[Hi|Hi]]; [|congruence|];
        [unfold L1 in Hi|unfold L2 in Hi]; apply filter_In in Hi; destruct Hi as [_ Hi];
        unfold ne in Hi; rewrite Hsz in Hi; discriminate.
    + exact F4.
    + exact F6.
    + exact F8.
    + exact F3.
    + exact F7.
    + rewrite F5. reflexivity.
    + intros w Hw. rewrite F1, F2. destruct (Fr1 w Hw) as (Y1 & Y2 & Y3 & Y4).
      destruct (X4 w) as [Y5 Y6].
      { intros [->|Hi]; [apply Hw; left; reflexivity|]. apply Hw.
        apply in_app_or in Hi. apply in_or_app. destruct Hi as [Hi|Hi].
        - left. apply Hsub1. right. exact Hi.
        - right. apply Hsub2. exact Hi. }
      rewrite Y5, Y6. auto.
  - split; cbn [set_deg i_prev i_next i_itp i_itn i_tail i_size i_deg i_ver i_head i_ent]; try reflexivity.
    + exact R1.
    + rewrite Hf by reflexivity. destruct (Nat.eqb_spec (i_size s v) 0); [contradiction|exact R2].
    + intros w Hw Hsz. apply Em; [|exact Hsz]. apply in_app_or in Hw. apply in_or_app.
      destruct Hw as [Hw|[->|Hw]]; auto. contradiction.
    + exact Fr1.
Qed.

(** ** splice *)
Lemma back_ok s u r1 v : forall fuel d b,
  seg (i_next s) (i_prev s) u r1 b -> NoDup (u :: r1) -> v <> u -> ~ In v r1 ->
  r1 = d ++ skipn (length d) r1 -> length d + 1 <= fuel ->
  (forall x, In x (skipn (length d) r1) -> i_size s x = 0) ->
  back fuel s u v (last d u) = last (filter (ne s) r1) u.
Proof.
  induction fuel as [|f IH]; intros d b H ND Hvu Hv Ed Hf Hz; [lia|].
  cbn [back].
  destruct d as [|x d] using rev_ind.
  - cbn [last]. rewrite Nat.eqb_refl. rewrite andb_false_r.
    cbn in Hz. replace (filter (ne s) r1) with (@nil nat); [reflexivity|].
    symmetry. clear -Hz. induction r1 as [|y r1 IH]; [reflexivity|]. cbn. unfold ne at 1.
    rewrite (Hz y) by (left; reflexivity). cbn. apply IH. intros x Hx. apply Hz. right. exact Hx.
  - clear IHd. rewrite last_app_cons. cbn [last].
    rewrite app_length in Hf, Ed, Hz. cbn [length] in Hf, Ed, Hz.
    set (q := skipn (length d + 1) r1) in *.
    rewrite <- app_assoc in Ed. cbn [app] in Ed.
    assert (Hxr : In x r1) by (rewrite Ed; apply in_or_app; right; left; reflexivity).
    assert (Hxv : x <> v) by (intros ->; contradiction).
    assert (Hxu : x <> u) by (intros ->; apply NoDup_cons_iff in ND; apply ND; exact Hxr).
    destruct (Nat.eqb_spec x v); [contradiction|]. destruct (Nat.eqb_spec x u); [contradiction|].
    cbn [orb negb]. rewrite andb_true_r.
    assert (Eq : skipn (length d) r1 = x :: q).
    { rewrite Ed at 1. apply skipn_exact. reflexivity. }
    destruct (Nat.eqb_spec (i_size s x) 0) as [Hx0|Hx0].
    + assert (Ep : i_prev s x = last d u).
      { rewrite Ed in H. apply seg_app in H. destruct H as [H _]. apply seg_last in H. apply H. }
      rewrite Ep. apply (IH d b); auto.
      * rewrite Eq. exact Ed.
      * lia.
      * rewrite Eq. intros y [<-|Hy]; [exact Hx0|]. apply Hz. exact Hy.
    + rewrite Ed. rewrite filter_app. cbn [filter]. unfold ne at 2.
      destruct (Nat.eqb_spec (i_size s x) 0); [contradiction|]. cbn [negb].
      replace (filter (ne s) q) with (@nil nat).
      * rewrite last_app_cons. reflexivity.
      * symmetry. clear -Hz. induction q as [|y q0 IH]; [reflexivity|]. cbn. unfold ne at 1.
        rewrite (Hz y) by (left; reflexivity). cbn. apply IH. intros x Hx. apply Hz. right. exact Hx.
Qed.

Lemma fwd_ok s u tl : forall c2 fuel d,
  seg (i_next s) (i_prev s) d c2 u -> NoDup (u :: c2) -> ~ In tl (u :: c2) ->
  length c2 + 1 <= fuel ->
  fwd fuel s u tl (i_next s d) = hd u (filter (ne s) c2).
Proof.
  induction c2 as [|x c2 IH]; intros fuel d H ND Ht Hf; (destruct fuel as [|f]; [cbn in Hf; lia|]).
  - cbn in H. destruct H as [-> _]. cbn [fwd]. rewrite Nat.eqb_refl, andb_false_r. reflexivity.
  - cbn in H. destruct H as (-> & _ & H). cbn [fwd].
    assert (Hxu : x <> u) by (intros ->; apply NoDup_cons_iff in ND; apply ND; left; reflexivity).
    assert (Hxt : x <> tl) by (intros ->; apply Ht; right; left; reflexivity).
    destruct (Nat.eqb_spec x tl); [contradiction|]. destruct (Nat.eqb_spec x u); [contradiction|].
    cbn [orb negb]. rewrite andb_true_r. cbn [filter]. unfold ne at 1.
    destruct (Nat.eqb_spec (i_size s x) 0) as [E|E]; cbn [negb].
    + apply IH; auto.
      * apply NoDup_cons_iff in ND. destruct ND as [N1 N2]. apply NoDup_cons_iff in N2.
        apply NoDup_cons; [|apply N2]. intros Hi. apply N1. right. exact Hi.
      * intros Hi. apply Ht. destruct Hi as [->|Hi]; [left; reflexivity|right; right; exact Hi].
      * cbn in Hf. lia.
    + reflexivity.
Qed.

Record spl_ok (s s' : ina) (u : nat) (r1 : list nat) (v : nat) (m c2 : list nat) : Prop := {
  so_ring : seg (i_next s') (i_prev s') u (r1 ++ c2) u;
  so_ringv : seg (i_next s') (i_prev s') v m v;
  so_it : seg (i_itn s') (i_itp s') u (filter (ne s') (r1 ++ c2)) u;
  so_same : forall w, In w (v :: m) -> i_itn s' w = i_itn s w /\ i_itp s' w = i_itp s w;
  so_empty : forall w, In w (r1 ++ c2) -> i_size s w = 0 -> i_itn s' w = i_itn s w /\ i_itp s' w = i_itp s w;
  so_size : i_size s' = i_size s;
  so_ver : i_ver s' = i_ver s;
  so_ent : i_ent s' = i_ent s;
  so_tail : i_tail s' = i_tail s;
  so_head : i_head s' = upd (i_head s) v true;
  so_deg : i_deg s' = upd (i_deg s) u (i_deg s u - i_deg s v)%Z;
  so_frame : forall w, ~ In w (u :: r1 ++ (v :: m) ++ c2) ->
    i_next s' w = i_next s w /\ i_prev s' w = i_prev s w /\
    i_itn s' w = i_itn s w /\ i_itp s' w = i_itp s w }.

Lemma splice_ok fuel s u r1 v m c2 :
  seg (i_next s) (i_prev s) u (r1 ++ (v :: m) ++ c2) u ->
  seg (i_itn s) (i_itp s) u (filter (ne s) (r1 ++ (v :: m) ++ c2)) u ->
  NoDup (u :: r1 ++ (v :: m) ++ c2) -> i_tail s v = last m v ->
  length (r1 ++ (v :: m) ++ c2) + 1 <= fuel ->
  spl_ok s (splice_step fuel s u v) u r1 v m c2.
Proof.
  intros H I ND Et Hf.
  pose proof ND as NDc. apply NoDup_cons_iff in NDc. destruct NDc as [Hu ND'].
  assert (Hsplit : seg (i_next s) (i_prev s) u r1 v /\ seg (i_next s) (i_prev s) v (m ++ c2) u).
  { cbn [app] in H. apply seg_app in H. exact H. }
  destruct Hsplit as [Hr1 Hr2].
  assert (D1 : forall x, In x r1 -> In x (v :: m ++ c2) -> False).
  { apply (NoDup_app_disj _ _ ND'). }
  assert (D2 : forall x, In x (v :: m) -> In x c2 -> False).
  { apply NoDup_app_remove_l in ND'. apply (NoDup_app_disj _ _ ND'). }
  assert (NDr : NoDup (u :: r1)).
  { apply NoDup_cons; [|apply (NoDup_app_remove_r _ _ ND')]. intros Hi. apply Hu. apply in_or_app. auto. }
  assert (NDc2 : NoDup (u :: c2)).
  { apply NoDup_cons.
    - intros Hi. apply Hu. apply in_or_app. right. apply in_or_app. auto.
    - apply NoDup_app_remove_l in ND'. apply NoDup_app_remove_l in ND'. exact ND'. }
  assert (NDvm : NoDup (v :: m)).
  { apply NoDup_app_remove_l in ND'. apply NoDup_app_remove_r in ND'. exact ND'. }
  assert (Hvu : v <> u).
  { intros ->. apply Hu. apply in_or_app. right. left. reflexivity. }
  assert (Hvr : ~ In v r1) by (intros Hi; apply (D1 v Hi); left; reflexivity).
  assert (Hum : forall x, In x (v :: m) -> x <> u).
  { intros x Hx ->. apply Hu. apply in_or_app. right. apply in_or_app. left. exact Hx. }
  rewrite !app_length in Hf. cbn [length] in Hf.
  assert (Hseg2 : seg (i_next s) (i_prev s) (last m v) c2 u).
  { destruct m as [|y m' _] using rev_ind; [exact Hr2|].
    rewrite <- app_assoc in Hr2. cbn [app] in Hr2. apply seg_app in Hr2.
    rewrite last_app_cons. apply Hr2. }
  (* pv and nt *)
  assert (Eb : back fuel s u v v = last (filter (ne s) r1) u).
  { destruct fuel as [|f]; [lia|]. cbn [back]. rewrite Nat.eqb_refl. cbn [orb].
    destruct (Nat.eqb_spec v u); [contradiction|]. cbn [negb andb].
    destruct (seg_last _ _ _ _ _ Hr1) as [_ Ep]. rewrite Ep.
    apply (back_ok s u r1 v f r1 v); auto.
    - rewrite skipn_all, app_nil_r. reflexivity.
    - lia.
    - rewrite skipn_all. intros x []. }
  assert (Hlm : In (last m v) (v :: m)) by apply last_in.
  assert (Efw : fwd fuel s u (i_tail s v) (i_tail s v) = hd u (filter (ne s) c2)).
  { rewrite Et. destruct fuel as [|f]; [lia|]. cbn [fwd]. rewrite Nat.eqb_refl. cbn [orb].
    destruct (Nat.eqb_spec (last m v) u) as [E|]; [exfalso; apply (Hum _ Hlm E)|]. cbn [negb andb].
    apply fwd_ok; auto; [|lia].
    intros [E|Hi]; [apply (Hum _ Hlm); auto|apply (D2 _ Hlm Hi)]. }
  set (pv := last (filter (ne s) r1) u) in *. set (nt := hd u (filter (ne s) c2)) in *.
  assert (Hpv : In pv (u :: r1)) by (apply (@in_filter_ring (ne s)); apply last_in).
  assert (Hnt : In nt (u :: c2)).
  { unfold nt. destruct (filter (ne s) c2) as [|y q] eqn:Ef; [left; reflexivity|]. cbn.
    right. assert (Hy : In y (filter (ne s) c2)) by (rewrite Ef; left; reflexivity).
    apply filter_In in Hy. apply Hy. }
  destruct (seg_last _ _ _ _ _ Hr1) as [Eprn Epr].
  set (prv := last r1 u) in *.
  assert (Hprv : In prv (u :: r1)) by apply last_in.
  set (nxt := hd u c2).
  assert (Enx : i_next s (last m v) = nxt).
  { destruct c2; cbn in Hseg2 |- *; apply Hseg2. }
  assert (Hnxt : In nxt (u :: c2)) by (unfold nxt; destruct c2; [left|right; left]; reflexivity).
  assert (Es : splice_step fuel s u v =
     mkIna (upd (upd (i_prev s) v (last m v)) nxt prv)
           (upd (upd (i_next s) (last m v) v) prv nxt)
           (upd (i_itp s) nt pv) (upd (i_itn s) pv nt) (i_tail s) (i_size s)
           (upd (i_deg s) u (i_deg s u - i_deg s v)%Z) (i_ver s) (upd (i_head s) v true) (i_ent s)).
  { unfold splice_step, splice. cbn zeta. rewrite Eb, Efw.
    cbn [set_prev set_next set_itp set_itn set_tail set_head set_deg i_prev i_next i_itp i_itn i_tail i_size i_deg i_ver i_head i_ent].
    rewrite Et, Enx, Epr. reflexivity. }
  rewrite Es. clear Es.
  assert (Out : forall x y, In x (u :: r1) \/ In x (u :: c2) -> In y (v :: m) -> x <> y).
  { intros x y Hx Hy ->. destruct Hx as [[E|Hx]|[E|Hx]].
    - apply (Hum _ Hy). auto.
    - apply (D1 y Hx). change (In y ((v :: m) ++ c2)). apply in_or_app. left. exact Hy.
    - apply (Hum _ Hy). auto.
    - apply (D2 y Hy Hx). }
  assert (Osplit : forall x, In x (u :: r1 ++ c2) -> In x (u :: r1) \/ In x (u :: c2)).
  { intros x [->|Hx]; [left; left; reflexivity|]. apply in_app_or in Hx.
    destruct Hx; [left|right]; right; assumption. }
  split; cbn [i_prev i_next i_itp i_itn i_tail i_size i_deg i_ver i_head i_ent]; try reflexivity.
  - apply (cut_seg (i_next s) (i_prev s) _ _ u r1 (v :: m) c2); auto.
    + intros y Hy Hne. rewrite !upd_other; auto.
    + apply upd_same.
    + intros y Hy Hne. rewrite !upd_other; auto.
      apply Out; [apply Osplit; exact Hy|left; reflexivity].
    + apply upd_same.
  - assert (Hseg3 : exists b, seg (i_next s) (i_prev s) v m b).
    { destruct c2 as [|y c2]; [rewrite app_nil_r in Hr2; eauto|].
      apply seg_app in Hr2. exists y. apply Hr2. }
    destruct Hseg3 as [b Hseg3].
    apply (seg_redirect (i_next s) (i_prev s) _ _ _ _ _ b Hseg3 NDvm).
    + intros x Hx Hne. rewrite !upd_other; auto.
      apply not_eq_sym. apply Out; auto.
    + rewrite upd_other; [apply upd_same|]. apply not_eq_sym. apply Out; auto.
    + intros x Hx. rewrite !upd_other; auto.
      * intros ->. apply NoDup_cons_iff in NDvm. apply NDvm. exact Hx.
      * apply not_eq_sym. apply Out; [right; exact Hnxt|right; exact Hx].
    + rewrite upd_other; [apply upd_same|]. apply not_eq_sym. apply Out; [right; exact Hnxt|left; reflexivity].
  - change (filter (ne _) (r1 ++ c2)) with (filter (ne s) (r1 ++ c2)).
    rewrite !filter_app in I. rewrite filter_app.
    assert (NDf : NoDup (u :: filter (ne s) r1 ++ filter (ne s) (v :: m) ++ filter (ne s) c2)).
    { rewrite <- !filter_app. apply NoDup_cons_filter. exact ND. }
    apply (cut_seg (i_itn s) (i_itp s) _ _ u (filter (ne s) r1) (filter (ne s) (v :: m)) (filter (ne s) c2)); auto.
    + intros y Hy Hne. rewrite upd_other; auto.
    + apply upd_same.
    + intros y Hy Hne. rewrite upd_other; auto.
    + apply upd_same.
  - intros w Hw. rewrite !upd_other; auto; apply not_eq_sym; apply Out; auto.
  - intros w Hw Hz.
    assert (K : forall x, In x (u :: filter (ne s) r1) \/ In x (u :: filter (ne s) c2) -> w <> x).
    { intros x Hx ->.
      assert (Hxu : x <> u).
      { intros ->. apply Hu. apply in_app_or in Hw. apply in_or_app. destruct Hw; auto.
        right. apply in_or_app. auto. }
      destruct Hx as [[E|Hx]|[E|Hx]]; try congruence;
        apply filter_In in Hx; destruct Hx as [_ Hx]; unfold ne in Hx; rewrite Hz in Hx; discriminate. }
    rewrite !upd_other; auto; apply K.
    + right. unfold nt. destruct (filter (ne s) c2); [left|right; left]; reflexivity.
    + left. apply last_in.
  - intros w Hw.
    assert (K : forall x, In x (u :: r1) \/ In x (u :: c2) \/ In x (v :: m) -> w <> x).
    { intros x Hx ->. apply Hw. destruct Hx as [[->|Hx]|[[->|Hx]|Hx]].
      - left. reflexivity.
      - right. apply in_or_app. left. exact Hx.
      - left. reflexivity.
      - right. apply in_or_app. right. apply in_or_app. right. exact Hx.
      - right. apply in_or_app. right. apply in_or_app. left. exact Hx. }
    assert (w <> v) by (apply K; right; right; left; reflexivity).
    assert (w <> last m v) by (apply K; auto).
    assert (w <> nt) by (apply K; auto). assert (w <> pv) by (apply K; auto).
    assert (w <> nxt) by (apply K; auto). assert (w <> prv) by (apply K; auto).
    rewrite !upd_other by auto. auto.
Qed.
