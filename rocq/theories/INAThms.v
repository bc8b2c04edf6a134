(** The incident net array implements the histories of INASpec. *)
From Coq Require Import List Arith Lia ZArith Bool Permutation.
From Verif Require Import Base INA INASpec INALoop INARep INAOps INAOps2 INAOps3.
Import ListNotations.
Local Open Scope nat_scope.

Fixpoint leaves (t : hist) : list (nat * list (nat -> bool)) :=
  match t with
  | Leaf w => [(w, [])]
  | App t tv => leaves t ++ leaves tv
  | Rem t R => map (fun p => (fst p, R :: snd p)) (leaves t)
  end.
Fixpoint apps (t : hist) : list hist :=
  match t with
  | Leaf _ => []
  | App t tv => tv :: apps t ++ apps tv
  | Rem t _ => apps t
  end.
Definition rest (t : hist) : list nat := tl (members t).

Lemma members_leaves t : members t = map fst (leaves t).
Proof.
  induction t as [w|t IHt tv IHv|t IHt R]; cbn; [reflexivity| |].
  - rewrite map_app, IHt, IHv. reflexivity.
  - rewrite map_map. exact IHt.
Qed.
Lemma members_root t : members t = root t :: rest t.
Proof.
  unfold rest. induction t as [w|t IHt tv IHv|t IHt R]; cbn; [reflexivity| |exact IHt].
  rewrite IHt at 1. rewrite IHt at 2. reflexivity.
Qed.
Lemma rest_app t tv : rest (App t tv) = rest t ++ root tv :: rest tv.
Proof. unfold rest at 1. cbn. rewrite (members_root t), (members_root tv). reflexivity. Qed.
Lemma root_in t : In (root t) (members t).
Proof. rewrite members_root. left. reflexivity. Qed.

Lemma nets_leaves N t : nets N t = flat_map (fun p => content (snd p) (N (fst p))) (leaves t).
Proof.
  induction t as [w|t IHt tv IHv|t IHt R]; cbn.
  - rewrite app_nil_r. reflexivity.
  - rewrite flat_map_app, IHt, IHv. reflexivity.
  - rewrite IHt. clear IHt. induction (leaves t) as [|p q IH]; cbn; [reflexivity|].
    rewrite filter_app, IH. reflexivity.
Qed.

Lemma apps_members t : forall tv, In tv (apps t) -> In (root tv) (rest t).
Proof.
  induction t as [w|t IHt tv IHv|t IHt R]; cbn [apps]; intros x Hx; [destruct Hx| |apply IHt; exact Hx].
  rewrite rest_app. destruct Hx as [<-|Hx].
  - apply in_or_app. right. left. reflexivity.
  - apply in_app_or in Hx. apply in_or_app. destruct Hx as [Hx|Hx]; [left; auto|right; right; auto].
Qed.

Record rep (N : nat -> list nat) (s : ina) (t : hist) (b : bool) : Prop := {
  rp_ring : seg (i_next s) (i_prev s) (root t) (rest t) (root t);
  rp_it : if b then forall w, In w (members t) -> In (i_itp s w) (members t) -> i_itn s (i_itp s w) = w
          else seg (i_itn s) (i_itp s) (root t) (filter (ne s) (rest t)) (root t);
  rp_empty : forall w, In w (rest t) -> i_size s w = 0 -> i_itn s w = w /\ i_itp s w = w;
  rp_arr : forall w Ss, In (w, Ss) (leaves t) -> arr (N w) Ss (i_ent s w) (i_size s w) /\ i_ver s w = Z.of_nat (length Ss);
  rp_root : i_head s (root t) = true;
  rp_head : forall w, In w (rest t) -> i_head s w = false;
  rp_deg : i_deg s (root t) = Z.of_nat (length (nets N t));
  rp_apps : forall tv, In tv (apps t) -> i_tail s (root tv) = last (rest tv) (root tv) /\
                                       i_deg s (root tv) = Z.of_nat (length (nets N tv)) }.

Definition same (s s' : ina) (w : nat) : Prop :=
  i_next s' w = i_next s w /\ i_prev s' w = i_prev s w /\ i_itn s' w = i_itn s w /\ i_itp s' w = i_itp s w /\
  i_tail s' w = i_tail s w /\ i_size s' w = i_size s w /\ i_deg s' w = i_deg s w /\ i_ver s' w = i_ver s w /\
  i_head s' w = i_head s w /\ i_ent s' w = i_ent s w.
Definition fresh (s : ina) (t : hist) : Prop :=
  forall w, In w (members t) -> forall en, In en (firstn (i_size s w) (i_ent s w)) -> snd en = i_ver s w.

Lemma rest_members t w : In w (rest t) -> In w (members t).
Proof. rewrite members_root. right. assumption. Qed.

Lemma rep_ext N s s' t b : (forall w, In w (members t) -> same s s' w) -> rep N s t b -> rep N s' t b.
Proof.
  intros H [R1 R2 R3 R4 R5 R6 R7 R8].
  assert (Hr : forall w, In w (root t :: rest t) -> same s s' w)
    by (intros w Hw; apply H; rewrite members_root; exact Hw).
  assert (Hfil : filter (ne s') (rest t) = filter (ne s) (rest t)).
  { apply filter_ext_in. intros w Hw. unfold ne. destruct (H w (rest_members _ _ Hw)) as (_&_&_&_&_&E&_).
    rewrite E. reflexivity. }
  split.
  - apply (seg_ext (i_next s) (i_prev s)); auto.
    + intros x Hx. apply Hr. exact Hx.
    + intros x Hx. apply Hr. destruct Hx as [Hx| ->]; [right; exact Hx|left; reflexivity].
  - destruct b.
    + intros w Hw. destruct (H w Hw) as (_&_&_&E&_). rewrite E. intros Hi.
      destruct (H _ Hi) as (_&_&E2&_). rewrite E2. apply R2; auto.
    + rewrite Hfil. apply (seg_ext (i_itn s) (i_itp s)); auto.
      * intros x Hx. apply Hr. apply (@in_filter_ring (ne s)). exact Hx.
      * intros x Hx. apply Hr. destruct Hx as [Hx| ->]; [right; apply filter_In in Hx; apply Hx|left; reflexivity].
  - intros w Hw. destruct (H w (rest_members _ _ Hw)) as (_&_&E1&E2&_&E3&_). rewrite E1, E2, E3. auto.
  - intros w Ss Hw.
    assert (Hm : In w (members t)) by (rewrite members_leaves; apply in_map_iff; exists (w, Ss); auto).
    destruct (H w Hm) as (_&_&_&_&_&E3&_&E4&_&E5). rewrite E3, E4, E5. auto.
  - destruct (H _ (root_in t)) as (_&_&_&_&_&_&_&_&E&_). rewrite E. exact R5.
  - intros w Hw. destruct (H w (rest_members _ _ Hw)) as (_&_&_&_&_&_&_&_&E&_). rewrite E. auto.
  - destruct (H _ (root_in t)) as (_&_&_&_&_&_&E&_). rewrite E. exact R7.
  - intros tv Hv. destruct (H _ (rest_members _ _ (apps_members _ _ Hv))) as (_&_&_&_&E1&_&E2&_).
    rewrite E1, E2. auto.
Qed.
Lemma fresh_ext s s' t : (forall w, In w (members t) -> same s s' w) -> fresh s t -> fresh s' t.
Proof.
  intros H F w Hw. destruct (H w Hw) as (_&_&_&_&_&E1&_&E2&_&E3). rewrite E1, E2, E3. apply F. exact Hw.
Qed.

Lemma rep_weak N s t b : rep N s t b ->
  forall w, In w (members t) -> In (i_itp s w) (members t) -> i_itn s (i_itp s w) = w.
Proof.
  intros [R1 R2 R3 R4 R5 R6 R7 R8]. destruct b; [exact R2|].
  intros w Hw _. rewrite members_root in Hw. destruct Hw as [<-|Hw].
  - apply (seg_inv _ _ _ _ _ R2). right. reflexivity.
  - destruct (Nat.eq_dec (i_size s w) 0) as [Hz|Hz].
    + destruct (R3 w Hw Hz) as [A B]. rewrite B. exact A.
    + apply (seg_inv _ _ _ _ _ R2). left. apply filter_In. split; [exact Hw|].
      unfold ne. destruct (Nat.eqb_spec (i_size s w) 0); [contradiction|reflexivity].
Qed.

(** the degree is the number of incident nets *)
Lemma nets_length N s t : (forall w Ss, In (w, Ss) (leaves t) -> i_size s w = length (content Ss (N w))) ->
  Z.of_nat (length (nets N t)) = sumZ (fun w => Z.of_nat (i_size s w)) (members t).
Proof.
  rewrite nets_leaves, members_leaves.
  induction (leaves t) as [|[w Ss] q IH]; cbn; intros H; [reflexivity|].
  rewrite app_length, <- IH by (intros; apply H; auto). rewrite (H w Ss) by auto. lia.
Qed.
Lemma rep_sizes N s t b : rep N s t b ->
  Z.of_nat (length (nets N t)) = sumZ (fun w => Z.of_nat (i_size s w)) (members t).
Proof.
  intros R. apply nets_length. intros w Ss Hw. apply (arr_length _ _ (i_ent s w)). apply (rp_arr _ _ _ _ R). exact Hw.
Qed.

Lemma sumZ_minus {A} (f g : A -> Z) l : sumZ (fun x => f x - g x)%Z l = (sumZ f l - sumZ g l)%Z.
Proof. induction l as [|x l IH]; cbn; [reflexivity|]. rewrite IH. lia. Qed.
Lemma sumZ_plus' {A} (f g : A -> Z) l : sumZ (fun x => f x + g x)%Z l = (sumZ f l + sumZ g l)%Z.
Proof. induction l as [|x l IH]; cbn; [reflexivity|]. rewrite IH. lia. Qed.

(** ** removeIncidentNets *)
Lemma op_rem N fuel s t R : rep N s t false -> fresh s t -> NoDup (members t) ->
  length (members t) <= S fuel ->
  let s' := removeIncidentNets fuel s (root t) R in
  rep N s' (Rem t R) false /\ fresh s' (Rem t R) /\ (forall w, ~ In w (members t) -> same s s' w).
Proof.
  intros Rp Fr ND Hf s'. destruct Rp as [R1 R2 R3 R4 R5 R6 R7 R8] eqn:Erp. pose proof Rp as Rp0. clear Erp.
  rewrite members_root in ND, Hf.
  assert (Hleaf : forall w, In w (root t :: rest t) -> exists Ss, In (w, Ss) (leaves t)).
  { intros w Hw. rewrite <- members_root, members_leaves in Hw. apply in_map_iff in Hw.
    destruct Hw as ([w' Ss] & <- & Hw). exists Ss. exact Hw. }
  assert (Hlen : forall w, In w (root t :: rest t) -> i_size s w <= length (i_ent s w)).
  { intros w Hw. destruct (Hleaf w Hw) as [Ss HS]. destruct (R4 w Ss HS) as [HA _].
    apply arr_content in HA. apply HA. }
  assert (I : rm_inv s s' R (root t) (rest t) (root t :: rest t)).
  { apply (rm_chain_ok s R (root t) (rest t) R1 ND Hlen (rest t) fuel s [] (root t)).
    - reflexivity.
    - cbn in Hf. lia.
    - split; auto; try (intros w []). cbn. lia. }
  destruct I as [In1 Ip It Ih Itodo Idone Id Idu Iit Iem Ifr].
  assert (Harr : forall w Ss, In (w, Ss) (leaves t) ->
     arr (N w) (R :: Ss) (i_ent s' w) (i_size s' w) /\ i_ver s' w = Z.of_nat (length (R :: Ss)) /\
     forall en, In en (firstn (i_size s' w) (i_ent s' w)) -> snd en = i_ver s' w).
  { intros w Ss HS.
    assert (Hm : In w (members t)) by (rewrite members_leaves; apply in_map_iff; exists (w, Ss); auto).
    destruct (R4 w Ss HS) as [HA HV].
    pose proof (Idone w) as Q. rewrite <- members_root in Q. destruct (Q Hm) as [Q1 (k & Q2 & Q3)]. clear Q.
    rewrite HV in Q2.
    destruct (arr_remove _ _ R _ _ HA) with (l' := i_ent s' w) (k := k) as (X1 & X2 & X3).
    - rewrite <- HV. apply Fr. exact Hm.
    - exact Q2.
    - rewrite Q3. split; [exact X2|]. rewrite Q1, HV. split; [cbn [length]; lia|]. exact X3. }
  split; [|split].
  - split; cbn [root rest members apps].
    + change (rest (Rem t R)) with (rest t). rewrite In1, Ip. exact R1.
    + exact Iit.
    + exact Iem.
    + intros w Ss HS. cbn [leaves] in HS. apply in_map_iff in HS. destruct HS as ([w' Ss'] & E & HS).
      cbn in E. injection E as -> <-. destruct (Harr _ _ HS) as (A & B & _). auto.
    + rewrite Ih. exact R5.
    + rewrite Ih. exact R6.
    + rewrite Idu, R7, (rep_sizes _ _ _ _ Rp0), <- members_root, sumZ_minus.
      rewrite (nets_length N s' (Rem t R)).
      * cbn [members]. lia.
      * intros w Ss HS. cbn [leaves] in HS. apply in_map_iff in HS. destruct HS as ([w' Ss'] & E & HS).
        cbn in E. injection E as -> <-. destruct (Harr _ _ HS) as (A & _). apply (arr_length _ _ _ _ A).
    + intros tv Hv. rewrite It. rewrite Id; [apply R8; exact Hv|].
      intros E. apply NoDup_cons_iff in ND. apply ND. rewrite <- E. apply apps_members. exact Hv.
  - intros w Hw. cbn [members] in Hw. rewrite members_leaves in Hw. apply in_map_iff in Hw.
    destruct Hw as ([w' Ss] & <- & HS). apply (Harr _ _ HS).
  - intros w Hw. rewrite members_root in Hw.
    destruct (Itodo w Hw) as (A & B & C). destruct (Ifr w Hw) as [D E].
    assert (w <> root t) by (intros ->; apply Hw; left; reflexivity).
    unfold same. rewrite In1, Ip, It, Ih, A, B, C, D, E, Id by auto. repeat split.
Qed.

(** ** append *)
Lemma op_app N s t tv : rep N s t false -> rep N s tv false -> fresh s t -> fresh s tv ->
  NoDup (members t ++ members tv) ->
  let s' := append_step s (root t) (root tv) in
  rep N s' (App t tv) false /\ fresh s' (App t tv) /\
  (forall w, ~ In w (members t ++ members tv) -> same s s' w).
Proof.
  intros Rt Rv Ft Fv ND s'. rewrite (members_root t), (members_root tv) in *.
  destruct Rt as [R1 R2 R3 R4 R5 R6 R7 R8], Rv as [V1 V2 V3 V4 V5 V6 V7 V8].
  pose proof (append_ok s (root t) (rest t) (root tv) (rest tv) R1 V1 R2 V2 R3 V3 ND) as A.
  fold s' in A. destruct A as [A1 A2 A3 A4 A5 A6 A7 A8 A9 A10].
  pose proof (NoDup_app_disj _ _ ND) as D.
  assert (Hne : forall w, In w (root t :: rest t) -> w <> root tv)
    by (intros w Hw ->; apply (D (root tv)); [exact Hw|left; reflexivity]).
  assert (Hne2 : forall w, In w (root tv :: rest tv) -> w <> root t)
    by (intros w Hw ->; apply (D (root t)); [left; reflexivity|exact Hw]).
  assert (Hv : ~ In (root tv) (rest tv))
    by (apply NoDup_app_remove_l in ND; apply NoDup_cons_iff in ND; apply ND).
  assert (Ht : ~ In (root t) (rest t))
    by (apply NoDup_app_remove_r in ND; apply NoDup_cons_iff in ND; apply ND).
  split; [|split].
  - split.
    + rewrite rest_app. exact A1.
    + rewrite rest_app. exact A2.
    + rewrite rest_app. exact A3.
    + intros w Ss HS. rewrite A4, A5, A6. cbn [leaves] in HS. apply in_app_or in HS. destruct HS; auto.
    + cbn [root]. rewrite A8, upd_other; [exact R5|]. apply Hne. left. reflexivity.
    + rewrite rest_app, A8. intros w Hw. apply in_app_or in Hw. destruct Hw as [Hw|[<-|Hw]].
      * rewrite upd_other; [apply R6; exact Hw|]. apply Hne. right. exact Hw.
      * apply upd_same.
      * rewrite upd_other; [apply V6; exact Hw|]. intros ->. contradiction.
    + cbn [root nets]. rewrite A9, upd_same, R7, V7, app_length. lia.
    + intros x Hx. cbn [apps] in Hx. rewrite A7, A9. destruct Hx as [<-|Hx].
      * rewrite upd_same. rewrite upd_other; [auto|]. apply Hne2. left. reflexivity.
      * apply in_app_or in Hx. destruct Hx as [Hx|Hx]; pose proof (apps_members _ _ Hx) as Hm.
        -- rewrite upd_other by (apply Hne; right; exact Hm).
           rewrite upd_other by (intros E; apply Ht; rewrite <- E; exact Hm). apply R8. exact Hx.
        -- rewrite upd_other by (intros E; apply Hv; rewrite <- E; exact Hm).
           rewrite upd_other by (apply Hne2; right; exact Hm). apply V8. exact Hx.
  - intros w Hw. rewrite A4, A5, A6. cbn [members] in Hw. apply in_app_or in Hw.
    destruct Hw as [Hw|Hw]; [apply Ft|apply Fv]; exact Hw.
  - intros w Hw. destruct (A10 w Hw) as (B1 & B2 & B3 & B4).
    assert (w <> root t) by (intros ->; apply Hw; left; reflexivity).
    assert (w <> root tv) by (intros ->; apply Hw; apply in_or_app; right; left; reflexivity).
    unfold same. rewrite A4, A5, A6, A7, A8, A9, !upd_other by auto. auto 10.
Qed.

(** ** splice *)
Lemma take_spec N v : forall t t0 tv, take v t = Some (t0, tv) ->
  root tv = v /\ root t0 = root t /\ In tv (apps t) /\
  (exists r1 c2, rest t = r1 ++ members tv ++ c2 /\ rest t0 = r1 ++ c2) /\
  (forall a, In a (apps t0) -> In a (apps t)) /\ (forall a, In a (apps tv) -> In a (apps t)) /\
  (forall x, In x (leaves t0) -> In x (leaves t)) /\ (forall x, In x (leaves tv) -> In x (leaves t)) /\
  length (nets N t) = length (nets N t0) + length (nets N tv).
Proof.
  induction t as [w|t IHt tw IHw|t IHt R]; intros t0 tv E; cbn [take] in E; try discriminate.
  destruct (Nat.eqb_spec (root tw) v) as [Ev|Ev].
  - injection E as <- <-. split; [exact Ev|]. split; [reflexivity|]. cbn [apps leaves nets].
    split; [left; reflexivity|]. split.
    + exists (rest t), []. rewrite !app_nil_r. split; [|reflexivity].
      rewrite rest_app, (members_root tw). reflexivity.
    + repeat split; intros; try (right; apply in_or_app; auto); try (apply in_or_app; auto).
      apply app_length.
  - destruct (take v t) as [[t1 tv1]|] eqn:Et; [|discriminate]. injection E as <- <-.
    destruct (IHt _ _ eq_refl) as (H1 & H2 & H3 & (r1 & c2 & H4 & H5) & H6 & H7 & H8 & H9 & H10).
    split; [exact H1|]. split; [exact H2|]. cbn [apps leaves nets]. split; [|split; [|split; [|split; [|split; [|split]]]]].
    + right. apply in_or_app. left. exact H3.
    + exists r1, (c2 ++ root tw :: rest tw). rewrite !rest_app, H4, H5, <- !app_assoc. auto.
    + intros a [<-|Ha]; [left; reflexivity|]. right. apply in_app_or in Ha. apply in_or_app. destruct Ha; auto.
    + intros a Ha. right. apply in_or_app. auto.
    + intros x Hx. apply in_app_or in Hx. apply in_or_app. destruct Hx; auto.
    + intros x Hx. apply in_or_app. auto.
    + rewrite !app_length. lia.
Qed.

Lemma op_splice N fuel s t v t0 tv : rep N s t false -> NoDup (members t) ->
  length (members t) <= fuel -> take v t = Some (t0, tv) ->
  let s' := splice_step fuel s (root t) v in
  rep N s' t0 false /\ rep N s' tv true /\ (forall w, ~ In w (members t) -> same s s' w).
Proof.
  intros Rt ND Hf Tk s'. destruct (take_spec N _ _ _ _ Tk) as (H1 & H2 & H3 & (r1 & c2 & H4 & H5) & H6 & H7 & H8 & H9 & H10).
  pose proof Rt as Rt0. destruct Rt as [R1 R2 R3 R4 R5 R6 R7 R8].
  rewrite members_root in ND, Hf. rewrite H4 in *. rewrite (members_root tv), H1 in *.
  destruct (R8 tv H3) as [T1 T2]. rewrite H1 in T1, T2.
  assert (Hf' : length (r1 ++ (v :: rest tv) ++ c2) + 1 <= fuel) by (cbn [length] in Hf; lia).
  pose proof (splice_ok fuel s (root t) r1 v (rest tv) c2 R1 R2 ND T1 Hf') as S. fold s' in S.
  destruct S as [S1 S2 S3 S4 S5 S6 S7 S8 S9 S10 S11 S12].
  pose proof ND as NDc. apply NoDup_cons_iff in NDc. destruct NDc as [Hu ND'].
  assert (Hvu : v <> root t) by (intros E; apply Hu; rewrite <- E; apply in_or_app; right; left; reflexivity).
  assert (Hin1 : forall w, In w (r1 ++ c2) -> In w (r1 ++ (v :: rest tv) ++ c2) /\ w <> v /\ w <> root t).
  { intros w Hw.
    assert (Hin : In w (r1 ++ (v :: rest tv) ++ c2)).
    { apply in_app_or in Hw. apply in_or_app. destruct Hw; auto. right. apply in_or_app. auto. }
    split; [exact Hin|]. split.
    - intros ->. apply in_app_or in Hw. destruct Hw as [Hw|Hw].
      + apply (NoDup_app_disj _ _ ND' v Hw). left. reflexivity.
      + apply NoDup_app_remove_l in ND'. apply (NoDup_app_disj _ _ ND' v); [left; reflexivity|exact Hw].
    - intros ->. contradiction. }
  assert (Hin2 : forall w, In w (rest tv) -> In w (r1 ++ (v :: rest tv) ++ c2) /\ w <> v /\ w <> root t).
  { intros w Hw.
    assert (Hin : In w (r1 ++ (v :: rest tv) ++ c2)).
    { apply in_or_app. right. right. apply in_or_app. auto. }
    split; [exact Hin|]. split.
    - intros ->. apply NoDup_app_remove_l in ND'. apply NoDup_app_remove_r in ND'.
      apply NoDup_cons_iff in ND'. apply ND'. exact Hw.
    - intros ->. contradiction. }
  split; [|split].
  - split.
    + rewrite H2, H5. exact S1.
    + rewrite H2, H5. exact S3.
    + rewrite H5. intros w Hw Hz. rewrite S6 in Hz. destruct (S5 w Hw Hz) as [-> ->].
      apply R3; [apply Hin1; exact Hw|exact Hz].
    + intros w Ss HS. rewrite S6, S7, S8. auto.
    + rewrite H2, S10, upd_other by auto. exact R5.
    + rewrite H5, S10. intros w Hw. destruct (Hin1 w Hw) as (A & B & _). rewrite upd_other by auto. auto.
    + rewrite H2, S11, upd_same, R7, T2, H10. lia.
    + intros x Hx. rewrite S9, S11. pose proof (apps_members _ _ Hx) as Hm. rewrite H5 in Hm.
      destruct (Hin1 _ Hm) as (_ & _ & B). rewrite upd_other by auto. auto.
  - split; rewrite ?H1.
    + exact S2.
    + intros w Hw Hi. rewrite members_root, H1 in Hw, Hi.
      destruct (S4 w Hw) as [_ E]. rewrite E in Hi. rewrite E. destruct (S4 _ Hi) as [-> _].
      apply (rep_weak _ _ _ _ Rt0).
      * rewrite members_root. right. rewrite H4. apply in_or_app. right. apply in_or_app. left. exact Hw.
      * rewrite members_root. right. rewrite H4. apply in_or_app. right. apply in_or_app. left. exact Hi.
    + intros w Hw Hz. rewrite S6 in Hz. destruct (S4 w) as [-> ->]; [right; exact Hw|].
      apply R3; [apply Hin2; exact Hw|exact Hz].
    + intros w Ss HS. rewrite S6, S7, S8. auto.
    + rewrite S10. apply upd_same.
    + rewrite S10. intros w Hw. destruct (Hin2 w Hw) as (A & B & _). rewrite upd_other by auto. auto.
    + rewrite S11, upd_other by auto. exact T2.
    + intros x Hx. rewrite S9, S11. pose proof (apps_members _ _ Hx) as Hm.
      destruct (Hin2 _ Hm) as (_ & _ & B). rewrite upd_other by auto. auto.
  - intros w Hw. rewrite members_root, H4 in Hw.
    destruct (S12 w Hw) as (B1 & B2 & B3 & B4).
    assert (w <> root t) by (intros ->; apply Hw; left; reflexivity).
    assert (w <> v) by (intros ->; apply Hw; right; apply in_or_app; right; left; reflexivity).
    unfold same. rewrite S6, S7, S8, S9, S10, S11, !upd_other by auto. auto 10.
Qed.

(** ** restoreIncidentNets *)
Lemma ones_flat s l : ones (flat_map (evof s) l)
  = flat_map (fun w => map fst (firstn (kof s w) (skipn (i_size s w) (i_ent s w)))) l.
Proof.
  unfold ones. induction l as [|w l IH]; cbn [flat_map]; [reflexivity|].
  rewrite flat_map_app, IH. f_equal. unfold evof. rewrite flat_map_app.
  assert (E1 : forall q : list (nat * Z), flat_map (fun ev => match ev with Two _ => [] | One e => [e] end)
              (map (fun en => Two (fst en)) q) = []) by (induction q; cbn; auto).
  assert (E2 : forall q : list (nat * Z), flat_map (fun ev => match ev with Two _ => [] | One e => [e] end)
              (map (fun en => One (fst en)) q) = map fst q) by (induction q; cbn; f_equal; auto).
  rewrite E1, E2. reflexivity.
Qed.
Lemma twos_flat s l : twos (flat_map (evof s) l) = flat_map (ents s) l.
Proof.
  unfold twos. induction l as [|w l IH]; cbn [flat_map]; [reflexivity|].
  rewrite flat_map_app, IH. f_equal. unfold evof. rewrite flat_map_app.
  assert (E1 : forall q : list (nat * Z), flat_map (fun ev => match ev with Two e => [e] | One _ => [] end)
              (map (fun en => One (fst en)) q) = []) by (induction q; cbn; auto).
  assert (E2 : forall q : list (nat * Z), flat_map (fun ev => match ev with Two e => [e] | One _ => [] end)
              (map (fun en => Two (fst en)) q) = map fst q) by (induction q; cbn; f_equal; auto).
  rewrite E1, E2. apply app_nil_r.
Qed.

Lemma flat_perm {A B} (f g : A -> list B) l : (forall x, In x l -> Permutation (f x) (g x)) ->
  Permutation (flat_map f l) (flat_map g l).
Proof.
  induction l as [|x l IH]; cbn; intros H; [constructor|]. apply Permutation_app; auto.
Qed.
Lemma flat_map_map {A B C} (f : B -> list C) (g : A -> B) l : flat_map f (map g l) = flat_map (fun x => f (g x)) l.
Proof. induction l as [|x l IH]; cbn; [reflexivity|]. rewrite IH. reflexivity. Qed.

Lemma rep_ents N s t b : rep N s t b -> Permutation (flat_map (ents s) (members t)) (nets N t).
Proof.
  intros R. rewrite nets_leaves, members_leaves, flat_map_map. apply flat_perm.
  intros [w Ss] HS. cbn. destruct (rp_arr _ _ _ _ R w Ss HS) as [A _]. apply arr_content in A. apply A.
Qed.

Lemma op_restore N fuel s t R b : rep N s (Rem t R) b -> NoDup (members t) ->
  length (members t) <= S fuel ->
  let s' := fst (restoreIncidentNets fuel s (root t)) in
  let evs := snd (restoreIncidentNets fuel s (root t)) in
  rep N s' t false /\ (forall w, ~ In w (members t) -> same s s' w) /\
  Permutation (twos evs) (nets N (Rem t R)) /\
  Permutation (ones evs) (filter R (nets N t)).
Proof.
  intros Rt ND Hf s' evs. pose proof Rt as Rt0. pose proof (rep_weak _ _ _ _ Rt) as Wk.
  destruct Rt as [R1 R2 R3 R4 R5 R6 R7 R8]. cbn [root] in *.
  change (rest (Rem t R)) with (rest t) in *. change (members (Rem t R)) with (members t) in Wk.
  pose proof ND as ND0. rewrite members_root in ND, Wk, Hf.
  destruct (restore_ok fuel s (root t) (rest t) R1 ND Wk R3) as [O Eev]; [cbn in Hf; lia|].
  fold s' in O. fold evs in Eev.
  destruct O as [O1 O2 O3 O4 O5 O6 O7 O8 O9 O10 O11 O12].
  assert (Hleaf : forall w Ss, In (w, Ss) (leaves t) ->
    arr (N w) Ss (i_ent s w) (i_size s w + kof s w) /\
    Permutation (map fst (firstn (kof s w) (skipn (i_size s w) (i_ent s w)))) (filter R (content Ss (N w))) /\
    i_ver s w = Z.of_nat (length (R :: Ss))).
  { intros w Ss HS. destruct (R4 w (R :: Ss)) as [A V].
    - cbn [leaves]. apply in_map_iff. exists (w, Ss). auto.
    - destruct (arr_restore _ _ _ _ _ A) as [B C]. unfold kof. rewrite V. auto. }
  assert (Hsz : forall w, In w (members t) -> i_size s' w = i_size s w + kof s w)
    by (intros w Hw; apply O6; rewrite <- members_root; exact Hw).
  assert (Hmem : forall w Ss, In (w, Ss) (leaves t) -> In w (members t)).
  { intros w Ss HS. rewrite members_leaves. apply in_map_iff. exists (w, Ss). auto. }
  split; [|split; [|split]].
  - split.
    + rewrite O1, O2. exact R1.
    + exact O10.
    + exact O11.
    + intros w Ss HS. destruct (Hleaf w Ss HS) as (A & _ & V). rewrite O5, (Hsz w) by eauto.
      split; [exact A|]. rewrite O7 by (rewrite <- members_root; eauto). rewrite V. cbn [length]. lia.
    + rewrite O4. exact R5.
    + rewrite O4. exact R6.
    + rewrite O9, R7, <- members_root, (rep_sizes _ _ _ _ Rt0). cbn [members].
      rewrite (nets_length N s' t).
      * rewrite <- sumZ_plus'. apply sumZ_ext'. intros w Hw. rewrite (Hsz w Hw). lia.
      * intros w Ss HS. destruct (Hleaf w Ss HS) as (A & _). rewrite (Hsz w) by eauto.
        apply (arr_length _ _ _ _ A).
    + intros tv Hv. rewrite O3, O8; [apply R8; exact Hv|].
      intros E. apply NoDup_cons_iff in ND. apply ND. rewrite <- E. apply apps_members. exact Hv.
  - intros w Hw. rewrite members_root in Hw. destruct (O12 w Hw) as (A & B & C & D).
    assert (w <> root t) by (intros ->; apply Hw; left; reflexivity).
    unfold same. rewrite O1, O2, O3, O4, O5, A, B, C, D, O8 by auto. auto 10.
  - rewrite Eev, twos_flat, <- members_root. apply (rep_ents _ _ _ _ Rt0).
  - rewrite Eev, ones_flat, <- members_root, nets_leaves, members_leaves, flat_map_map.
    rewrite (flat_perm _ (fun p => filter R (content (snd p) (N (fst p)))) (leaves t)).
    + clear. induction (leaves t) as [|p q IH]; cbn; [constructor|].
      rewrite filter_app. apply Permutation_app_head. exact IH.
    + intros [w Ss] HS. cbn. apply (Hleaf w Ss HS).
Qed.

(** ** runs *)
Definition fmem (F : forest) : list nat := flat_map (fun p => members (fst p)) F.

Record finv (N : nat -> list nat) (n : nat) (s : ina) (p : bool) (F : forest) : Prop := {
  fv_perm : Permutation (fmem F) (seq 0 n);
  fv_rep : forall t b, In (t, b) F -> rep N s t b;
  fv_down : p = true -> forall t b, In (t, b) F -> b = false /\ fresh s t }.

Lemma fmem_perm F G : Permutation F G -> Permutation (fmem F) (fmem G).
Proof. intros H. unfold fmem. apply Permutation_flat_map. exact H. Qed.

Lemma finv_perm N n s p F G : Permutation F G -> finv N n s p F -> finv N n s p G.
Proof.
  intros H [A B C]. split.
  - etransitivity; [apply fmem_perm; symmetry; exact H|exact A].
  - intros t b Hi. apply B. eapply Permutation_in; [symmetry; exact H|exact Hi].
  - intros Hp t b Hi. apply (C Hp t b). eapply Permutation_in; [symmetry; exact H|exact Hi].
Qed.

Lemma finv_nodup N n s p F : finv N n s p F -> NoDup (fmem F).
Proof. intros [A _ _]. eapply Permutation_NoDup; [symmetry; exact A|apply seq_NoDup]. Qed.

Lemma fmem_in F t b w : In (t, b) F -> In w (members t) -> In w (fmem F).
Proof. intros Hi Hw. unfold fmem. apply in_flat_map. exists (t, b). auto. Qed.

(** one tree replaced by others over the same members, all other trees untouched *)
Lemma finv_replace N n s s' p p' t b G new :
  finv N n s p ((t, b) :: G) ->
  Permutation (fmem new) (members t) ->
  (forall w, ~ In w (members t) -> same s s' w) ->
  (forall t' b', In (t', b') new -> rep N s' t' b') ->
  (p' = true -> p = true /\ forall t' b', In (t', b') new -> b' = false /\ fresh s' t') ->
  finv N n s' p' (new ++ G).
Proof.
  intros I Pm Fr Hr Hd. pose proof (finv_nodup _ _ _ _ _ I) as ND. destruct I as [A B C].
  assert (Hs : forall t' b', In (t', b') G -> forall w, In w (members t') -> same s s' w).
  { intros t' b' Hi w Hw. apply Fr. intros Hw2. unfold fmem in ND. cbn in ND.
    apply (NoDup_app_disj _ _ ND w Hw2). fold (fmem G). eapply fmem_in; eauto. }
  split.
  - etransitivity; [|exact A]. unfold fmem. rewrite flat_map_app. cbn.
    apply Permutation_app_tail. exact Pm.
  - intros t' b' Hi. apply in_app_or in Hi. destruct Hi as [Hi|Hi]; [auto|].
    apply (rep_ext N s s'); [eapply Hs; eauto|]. apply B. right. exact Hi.
  - intros Hp t' b' Hi. destruct (Hd Hp) as [Hp0 Hn]. apply in_app_or in Hi. destruct Hi as [Hi|Hi]; [auto|].
    destruct (C Hp0 t' b') as [X Y]; [right; exact Hi|]. split; [exact X|].
    apply (fresh_ext s s'); [eapply Hs; eauto|exact Y].
Qed.

Lemma members_bound N n s p t b G : finv N n s p ((t, b) :: G) ->
  NoDup (members t) /\ length (members t) <= n.
Proof.
  intros I. pose proof (finv_nodup _ _ _ _ _ I) as ND. destruct I as [A _ _].
  apply Permutation_length in A. rewrite seq_length in A. unfold fmem in *. cbn in *.
  rewrite app_length in A. split; [apply (NoDup_app_remove_r _ _ ND)|lia].
Qed.

Lemma step_ok N n fuel s p F o pF' : n <= fuel -> finv N n s p F -> legal (p, F) o pF' ->
  finv N n (fst (exec fuel s o)) (fst pF') (snd pF').
Proof.
  intros Hn I L. inversion L; subst; cbn [fst snd exec].
  - (* remove *)
    match goal with H : Permutation F _ |- _ => apply (finv_perm _ _ _ _ _ _ H) in I end. destruct (members_bound _ _ _ _ _ _ _ I) as [ND Lm].
    destruct (fv_down _ _ _ _ _ I eq_refl t false) as [_ Ff]; [left; reflexivity|].
    destruct (op_rem N fuel s t R) as (X1 & X2 & X3); auto; [apply (fv_rep _ _ _ _ _ I); left; reflexivity|lia|].
    apply (finv_replace N n s _ true true t false G [(Rem t R, false)] I); auto.
    + cbn. rewrite app_nil_r. reflexivity.
    + intros t' b' [E|[]]. injection E as <- <-. exact X1.
    + intros _. split; [reflexivity|]. intros t' b' [E|[]]. injection E as <- <-. auto.
  - (* append *)
    match goal with H : Permutation F _ |- _ => apply (finv_perm _ _ _ _ _ _ H) in I end.
    pose proof (finv_nodup _ _ _ _ _ I) as ND. unfold fmem in ND. cbn in ND.
    rewrite app_assoc in ND. apply NoDup_app_remove_r in ND.
    destruct (fv_down _ _ _ _ _ I eq_refl t false) as [_ Ft]; [left; reflexivity|].
    destruct (fv_down _ _ _ _ _ I eq_refl tv false) as [_ Fv]; [right; left; reflexivity|].
    destruct (op_app N s t tv) as (X1 & X2 & X3); auto; try (apply (fv_rep _ _ _ _ _ I); cbn; auto).
    pose proof (finv_nodup _ _ _ _ _ I) as ND2. unfold fmem in ND2. cbn in ND2. rewrite app_assoc in ND2.
    destruct I as [A B C].
    assert (Hs : forall t' b', In (t', b') G -> forall w, In w (members t') -> same s (append_step s (root t) (root tv)) w).
    { intros t' b' Hi w Hw. apply X3. intros Hw2. apply (NoDup_app_disj _ _ ND2 w Hw2).
      fold (fmem G). eapply fmem_in; eauto. }
    split.
    + unfold fmem in *. cbn in *. rewrite <- app_assoc. exact A.
    + intros t' b' [E|Hi]; [injection E as <- <-; exact X1|].
      apply (rep_ext N s); [eapply Hs; eauto|]. apply B. right. right. exact Hi.
    + intros Hp t' b' [E|Hi]; [injection E as <- <-; auto|].
      destruct (C Hp t' b') as [X Y]; [right; right; exact Hi|]. split; [exact X|].
      apply (fresh_ext s); [eapply Hs; eauto|exact Y].
  - (* splice *)
    match goal with H : Permutation F _ |- _ => apply (finv_perm _ _ _ _ _ _ H) in I end. destruct (members_bound _ _ _ _ _ _ _ I) as [ND Lm].
    destruct (op_splice N fuel s t v t0 tv) as (X1 & X2 & X3); auto;
      [apply (fv_rep _ _ _ _ _ I); left; reflexivity|lia|].
    apply (finv_replace N n s _ p false t false G [(t0, false); (tv, true)] I); auto.
    + destruct (take_spec N _ _ _ _ ltac:(eassumption)) as (_ & T2 & _ & (r1 & c2 & T4 & T5) & _).
      unfold fmem. cbn. rewrite app_nil_r, (members_root t0), (members_root t), T2, T4, T5. cbn.
      constructor. rewrite <- app_assoc. apply Permutation_app_head. apply Permutation_app_comm.
    + intros t' b' [E|[E|[]]]; injection E as <- <-; auto.
    + discriminate.
  - (* restore *)
    match goal with H : Permutation F _ |- _ => apply (finv_perm _ _ _ _ _ _ H) in I end. destruct (members_bound _ _ _ _ _ _ _ I) as [ND Lm].
    cbn [members] in ND, Lm.
    destruct (op_restore N fuel s t R b) as (X1 & X3 & _); auto;
      [apply (fv_rep _ _ _ _ _ I); left; reflexivity|lia|].
    apply (finv_replace N n s _ p false (Rem t R) b G [(t, false)] I); auto.
    + unfold fmem. cbn. rewrite app_nil_r. reflexivity.
    + intros t' b' [E|[]]; injection E as <- <-; auto.
    + discriminate.
  - (* reset *)
    match goal with H : forall t b, In (t, b) F -> _ |- _ => rename H into Hl end.
    destruct I as [A B C]. split; auto.
    + intros t b Hi. destruct (Hl t b Hi) as (w & -> & ->). pose proof (B _ _ Hi) as [R1 R2 R3 R4 R5 R6 R7 R8].
      split; auto.
      * intros w' Ss [E|[]]. injection E as <- <-. destruct (R4 w []) as [[E1 P] V]; [left; reflexivity|].
        cbn. split; [|reflexivity]. split.
        -- rewrite app_length, map_length, firstn_length, skipn_length. lia.
        -- rewrite E1, firstn_all, skipn_all, app_nil_r, map_map. cbn. exact P.
    + intros _ t b Hi. destruct (Hl t b Hi) as (w & -> & ->). split; [reflexivity|].
      intros w' [<-|[]] en Hen. cbn in Hen |- *. pose proof (B _ _ Hi) as [_ _ _ R4 _ _ _ _].
      destruct (R4 w []) as [[E1 P] V]; [left; reflexivity|].
      rewrite E1, firstn_all, skipn_all, app_nil_r in Hen.
      rewrite firstn_all2 in Hen by (rewrite map_length; lia).
      apply in_map_iff in Hen. destruct Hen as (y & <- & _). reflexivity.
Qed.

Lemma init_ok N n : finv N n (ina_init N) true (map (fun u => (Leaf u, false)) (seq 0 n)).
Proof.
  split.
  - unfold fmem. rewrite flat_map_map. cbn. induction (seq 0 n) as [|x l IH]; cbn; [constructor|].
    constructor. exact IH.
  - intros t b Hi. apply in_map_iff in Hi. destruct Hi as (u & E & _). injection E as <- <-.
    split; cbn; auto.
    + intros w Ss [E|[]]. injection E as <- <-. cbn. split; [|reflexivity]. split.
      * rewrite map_length. reflexivity.
      * rewrite map_map. cbn. rewrite map_id. reflexivity.
    + tauto.
    + tauto.
  - intros _ t b Hi. apply in_map_iff in Hi. destruct Hi as (u & E & _). injection E as <- <-.
    split; [reflexivity|]. intros w [<-|[]] en Hen. cbn in *.
    rewrite firstn_all2 in Hen by (rewrite map_length; lia).
    apply in_map_iff in Hen. destruct Hen as (y & <- & _). reflexivity.
Qed.

Lemma run_ok N n fuel s pF : n <= fuel -> ina_run fuel N n s pF -> finv N n s (fst pF) (snd pF).
Proof.
  intros Hn H. induction H as [|s [p F] o pF' H IH L]; [apply init_ok|].
  cbn in IH. apply (step_ok N n fuel s p F o pF' Hn IH L).
Qed.
