(** Linked segments and the representation invariant of the incident net
    array. *)
From Coq Require Import List Arith Lia ZArith Bool Permutation.
From Verif Require Import Base INA INASpec INALoop.
Import ListNotations.
Local Open Scope nat_scope.

(** [seg nx pv a l b]: following [nx] from [a] visits exactly [l] and then
    [b]; [pv] is the inverse *)
Fixpoint seg (nx pv : nat -> nat) (a : nat) (l : list nat) (b : nat) : Prop :=
  match l with
  | [] => nx a = b /\ pv b = a
  | x :: l' => nx a = x /\ pv x = a /\ seg nx pv x l' b
  end.

Lemma NoDup_app_remove_r {A} (l1 l2 : list A) : NoDup (l1 ++ l2) -> NoDup l1.
Proof. induction l1 as [|x l IH]; cbn; intros H; [apply NoDup_nil|]. apply NoDup_cons_iff in H.
  destruct H as [H1 H2]. apply NoDup_cons; [|auto]. intros Hi. apply H1. apply in_or_app. auto. Qed.
Lemma NoDup_app_remove_l {A} (l1 l2 : list A) : NoDup (l1 ++ l2) -> NoDup l2.
Proof. induction l1 as [|x l IH]; cbn; intros H; [exact H|]. apply NoDup_cons_iff in H. apply IH, H. Qed.
Lemma NoDup_app_disj {A} (l1 l2 : list A) : NoDup (l1 ++ l2) -> forall x, In x l1 -> In x l2 -> False.
Proof. induction l1 as [|y l IH]; cbn; intros H x Ha Hb; [exact Ha|]. apply NoDup_cons_iff in H.
  destruct H as [H1 H2]. destruct Ha as [->|Ha]; [|eauto]. apply H1. apply in_or_app. auto. Qed.

Lemma seg_app nx pv : forall l1 a x l2 b,
  seg nx pv a (l1 ++ x :: l2) b <-> seg nx pv a l1 x /\ seg nx pv x l2 b.
Proof.
  induction l1 as [|y l1 IH]; intros a x l2 b; cbn.
  - tauto.
  - rewrite IH. tauto.
Qed.

Lemma last_cons_default {A} (l : list A) : forall x d d', last (x :: l) d = last (x :: l) d'.
Proof. induction l as [|y l IH]; intros x d d'; [reflexivity|]. cbn [last] in *. apply (IH y). Qed.
Lemma last_cons {A} (l : list A) x d : last (x :: l) d = last l x.
Proof. destruct l as [|y l]; [reflexivity|]. cbn [last]. apply last_cons_default. Qed.
Lemma last_in {A} (l : list A) x : In (last l x) (x :: l).
Proof.
  revert x. induction l as [|y l IH]; intros x; [left; reflexivity|].
  rewrite last_cons. right. apply IH.
Qed.
Lemma last_app_cons {A} (l1 : list A) x l2 d : last (l1 ++ x :: l2) d = last l2 x.
Proof. revert d. induction l1 as [|y l1 IH]; intros d; cbn [app]; rewrite last_cons; auto. Qed.

Lemma seg_last nx pv : forall l a b, seg nx pv a l b -> nx (last l a) = b /\ pv b = last l a.
Proof.
  induction l as [|x l IH]; intros a b; [cbn; tauto|]. rewrite last_cons.
  cbn. intros (_ & _ & H). apply IH. exact H.
Qed.

Lemma seg_ext nx pv nx' pv' : forall l a b, seg nx pv a l b ->
  (forall x, In x (a :: l) -> nx' x = nx x) ->
  (forall x, In x l \/ x = b -> pv' x = pv x) -> seg nx' pv' a l b.
Proof.
  induction l as [|y l IH]; intros a b; cbn; intros H H1 H2.
  - rewrite H1, H2 by auto. exact H.
  - destruct H as (E1 & E2 & H). rewrite H1, H2 by auto. repeat split; auto.
    apply IH; auto. intros x [Hx|Hx]; apply H2; auto.
Qed.

Lemma seg_redirect nx pv nx' pv' b' : forall l a b, seg nx pv a l b -> NoDup (a :: l) ->
  (forall x, In x (a :: l) -> x <> last l a -> nx' x = nx x) ->
  nx' (last l a) = b' ->
  (forall x, In x l -> pv' x = pv x) -> pv' b' = last l a -> seg nx' pv' a l b'.
Proof.
  induction l as [|y l IH]; intros a b; cbn [seg].
  - cbn. auto.
  - intros (E1 & E2 & H) ND H1. rewrite last_cons in *. intros H2 H3 H4.
    pose proof ND as NDc; apply NoDup_cons_iff in NDc; destruct NDc as [Hn ND'].
    split; [|split].
    + rewrite H1; [exact E1|left; reflexivity|].
      intros E. apply Hn. rewrite E. apply last_in.
    + rewrite H3 by (left; reflexivity). exact E2.
    + apply (IH _ b); auto.
      * intros x Hx. apply H1. right. exact Hx.
      * intros x Hx. apply H3. right. exact Hx.
Qed.

Lemma seg_inv nx pv : forall l a b, seg nx pv a l b ->
  forall x, In x l \/ x = b -> nx (pv x) = x /\ In (pv x) (a :: l).
Proof.
  induction l as [|y l IH]; intros a b; cbn [seg].
  - intros [E1 E2] x [[]| ->]. rewrite E2. split; [exact E1|left; reflexivity].
  - intros (E1 & E2 & H) x Hx.
    destruct Hx as [[->|Hx]| ->].
    + rewrite E2. split; [exact E1|left; reflexivity].
    + destruct (IH _ _ H x) as [Ea Eb]; [left; exact Hx|]. split; [exact Ea|right; exact Eb].
    + destruct (IH _ _ H b) as [Ea Eb]; [right; reflexivity|]. split; [exact Ea|right; exact Eb].
Qed.
Lemma seg_inv2 nx pv : forall l a b, seg nx pv a l b ->
  forall x, In x (a :: l) -> pv (nx x) = x /\ (In (nx x) l \/ nx x = b).
Proof.
  induction l as [|y l IH]; intros a b; cbn [seg].
  - intros [E1 E2] x [->|[]]. rewrite E1. auto.
  - intros (E1 & E2 & H) x [->|Hx].
    + rewrite E1. split; [exact E2|left; left; reflexivity].
    + destruct (IH _ _ H x Hx) as [Ea Eb]. split; [exact Ea|]. destruct Eb; cbn; auto.
Qed.

(** cutting one element out of a ring *)
Lemma seg_cut nx pv u l1 x l2 : seg nx pv u (l1 ++ x :: l2) u -> NoDup (u :: l1 ++ x :: l2) ->
  forall nx' pv',
  (forall y, y <> last l1 u -> y <> x -> nx' y = nx y) -> nx' (last l1 u) = nx x ->
  (forall y, y <> nx x -> y <> x -> pv' y = pv y) -> pv' (nx x) = last l1 u ->
  seg nx' pv' u (l1 ++ l2) u.
Proof.
  intros H ND nx' pv' H1 H2 H3 H4.
  apply seg_app in H. destruct H as [Ha Hb].
  assert (ND1 : NoDup (u :: l1)).
  { pose proof ND as NDc; apply NoDup_cons_iff in NDc; destruct NDc as [Hn ND']. apply NoDup_cons.
    - intros Hi. apply Hn. apply in_or_app. left. exact Hi.
    - apply NoDup_app_remove_r in ND'. exact ND'. }
  assert (Hx1 : ~ In x (u :: l1)).
  { pose proof ND as NDc; apply NoDup_cons_iff in NDc; destruct NDc as [Hn ND']. intros [->|Hi].
    - apply Hn. apply in_or_app. right. left. reflexivity.
    - apply NoDup_remove_2 in ND'. apply ND'. apply in_or_app. left. exact Hi. }
  assert (Hx2 : ~ In x l2).
  { pose proof ND as NDc; apply NoDup_cons_iff in NDc; destruct NDc as [Hn ND']. intros Hi. apply NoDup_remove_2 in ND'.
    apply ND'. apply in_or_app. right. exact Hi. }
  destruct l2 as [|y l2].
  - cbn in Hb. destruct Hb as [E1 E2]. rewrite E1 in *. rewrite app_nil_r.
    apply (seg_redirect nx pv _ _ _ _ _ x Ha ND1); auto.
    + intros z Hz Hne. apply H1; [exact Hne|]. intros ->. apply Hx1. exact Hz.
    + intros z Hz. apply H3.
      * intros ->. apply NoDup_cons_iff in ND1. apply ND1. exact Hz.
      * intros ->. apply Hx1. right. exact Hz.
  - cbn in Hb. destruct Hb as (E1 & E2 & Hb). rewrite E1 in *.
    apply seg_app. split.
    + apply (seg_redirect nx pv _ _ _ _ _ x Ha ND1); auto.
      * intros z Hz Hne. apply H1; [exact Hne|]. intros ->. apply Hx1. exact Hz.
      * intros z Hz. pose proof ND as NDc; apply NoDup_cons_iff in NDc; destruct NDc as [Hn ND']. apply H3.
        -- intros ->. apply (NoDup_app_disj _ _ ND' y); [exact Hz|]. right. left. reflexivity.
        -- intros ->. apply Hx1. right. exact Hz.
    + pose proof ND as NDc; apply NoDup_cons_iff in NDc; destruct NDc as [Hn ND'].
      apply (seg_ext nx pv); auto.
      * intros z Hz. apply H1.
        -- intros ->. destruct (last_in l1 u) as [E|Hi].
           ++ rewrite <- E in Hz. apply Hn. apply in_or_app. right. right. exact Hz.
           ++ apply (NoDup_app_disj _ _ ND' (last l1 u)); [exact Hi|]. right. exact Hz.
        -- intros ->. apply Hx2. exact Hz.
      * intros z Hz. apply H3.
        -- intros ->. destruct Hz as [Hz|Hz].
           ++ apply NoDup_app_remove_l in ND'. apply NoDup_cons_iff in ND'; destruct ND' as [_ ND2].
              apply NoDup_cons_iff in ND2. apply ND2. exact Hz.
           ++ apply Hn. rewrite <- Hz. apply in_or_app. right. right. left. reflexivity.
        -- intros ->. destruct Hz as [Hz|Hz].
           ++ apply Hx2. right. exact Hz.
           ++ apply Hx1. left. symmetry. exact Hz.
Qed.
