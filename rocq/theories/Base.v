(** Base.v - generic lemmas about lists, sums, point updates.  No modelling here. *)
From Coq Require Export List Arith ZArith Lia Bool Permutation Sorted.
From Coq Require Export ZifyBool ZifyNat.
Export ListNotations.
Global Open Scope Z_scope.

(** Point update of a total function (an array). *)
Definition upd {A : Type} (f : nat -> A) (i : nat) (v : A) : nat -> A :=
  fun j => if Nat.eqb j i then v else f j.
Definition upd2 {A : Type} (f : nat -> nat -> A) (i j : nat) (v : A) : nat -> nat -> A :=
  upd f i (upd (f i) j v).

Lemma upd_same {A} (f : nat -> A) i v : upd f i v i = v.
Proof. unfold upd. rewrite Nat.eqb_refl. reflexivity. Qed.
Lemma upd_other {A} (f : nat -> A) i j v : j <> i -> upd f i v j = f j.
Proof. unfold upd. intros H. destruct (Nat.eqb_spec j i); congruence. Qed.
Lemma upd2_same {A} (f : nat -> nat -> A) i j v : upd2 f i j v i j = v.
Proof. unfold upd2. rewrite !upd_same. reflexivity. Qed.
Lemma upd2_eq {A} (f : nat -> nat -> A) i j v a b :
  upd2 f i j v a b = if (Nat.eqb a i && Nat.eqb b j)%bool then v else f a b.
Proof.
  unfold upd2, upd. destruct (Nat.eqb_spec a i); simpl; [|reflexivity].
  destruct (Nat.eqb_spec b j); subst; reflexivity.
Qed.

(** Sum of [f] over a list. *)
Fixpoint sumZ {A : Type} (f : A -> Z) (l : list A) : Z :=
  match l with
  | [] => 0
  | x :: r => f x + sumZ f r
  end.

Section Sum.
  Context {A : Type}.
  Implicit Types (f g : A -> Z) (l : list A).

  Lemma sumZ_app f l1 l2 : sumZ f (l1 ++ l2) = sumZ f l1 + sumZ f l2.
  Proof. induction l1 as [|x r IH]; simpl; [reflexivity|rewrite IH; lia]. Qed.

  Lemma sumZ_ext f g l : (forall x, In x l -> f x = g x) -> sumZ f l = sumZ g l.
  Proof.
    induction l as [|x r IH]; intros H; simpl; [reflexivity|].
    rewrite (H x) by (left; reflexivity). rewrite IH; [reflexivity|].
    intros y Hy. apply H. right. exact Hy.
  Qed.

  Lemma sumZ_plus f g l : sumZ (fun x => f x + g x) l = sumZ f l + sumZ g l.
  Proof. induction l as [|x r IH]; simpl; [reflexivity|rewrite IH; lia]. Qed.
  Lemma sumZ_minus f g l : sumZ (fun x => f x - g x) l = sumZ f l - sumZ g l.
  Proof. induction l as [|x r IH]; simpl; [reflexivity|rewrite IH; lia]. Qed.
  Lemma sumZ_opp f l : sumZ (fun x => - f x) l = - sumZ f l.
  Proof. induction l as [|x r IH]; simpl; [reflexivity|rewrite IH; lia]. Qed.
  Lemma sumZ_scale c f l : sumZ (fun x => c * f x) l = c * sumZ f l.
  Proof. induction l as [|x r IH]; simpl; [lia|rewrite IH; lia]. Qed.
  Lemma sumZ_zero f l : (forall x, In x l -> f x = 0) -> sumZ f l = 0.
  Proof.
    intros H. rewrite (sumZ_ext f (fun _ => 0) l H).
    clear H. induction l as [|x r IH]; simpl; [reflexivity|exact IH].
  Qed.
  Lemma sumZ_nonneg f l : (forall x, In x l -> 0 <= f x) -> 0 <= sumZ f l.
  Proof.
    induction l as [|x r IH]; intros H; simpl; [lia|].
    assert (0 <= f x) by (apply H; left; reflexivity).
    assert (0 <= sumZ f r) by (apply IH; intros y Hy; apply H; right; exact Hy). lia.
  Qed.
  Lemma sumZ_le f g l : (forall x, In x l -> f x <= g x) -> sumZ f l <= sumZ g l.
  Proof.
    intros H. assert (0 <= sumZ (fun x => g x - f x) l).
    { apply sumZ_nonneg. intros x Hx. specialize (H x Hx). lia. }
    rewrite sumZ_minus in H0. lia.
  Qed.
  Lemma sumZ_perm f l1 l2 : Permutation l1 l2 -> sumZ f l1 = sumZ f l2.
  Proof.
    induction 1 as [|x a b Hp IH|x y a|a b c H1 IH1 H2 IH2]; simpl; lia.
  Qed.
  Lemma sumZ_filter f (p : A -> bool) l :
    sumZ f (filter p l) = sumZ (fun x => if p x then f x else 0) l.
  Proof. induction l as [|x r IH]; simpl; [reflexivity|]. destruct (p x); simpl; rewrite IH; lia. Qed.
  Lemma sumZ_const c l : sumZ (fun _ => c) l = c * Z.of_nat (length l).
  Proof. induction l as [|x r IH]; simpl length; cbn [sumZ]; [lia|rewrite IH; lia]. Qed.
  Lemma sumZ_length l : Z.of_nat (length l) = sumZ (fun _ => 1) l.
  Proof. rewrite sumZ_const. lia. Qed.
  Lemma length_filter_sum (p : A -> bool) l :
    Z.of_nat (length (filter p l)) = sumZ (fun x => Z.b2z (p x)) l.
  Proof.
    rewrite sumZ_length, sumZ_filter. apply sumZ_ext. intros x _. destruct (p x); reflexivity.
  Qed.
  Lemma sumZ_member_le f l x : (forall y, In y l -> 0 <= f y) -> In x l -> f x <= sumZ f l.
  Proof.
    induction l as [|a r IH]; intros Hn Hx; [destruct Hx|]. simpl.
    assert (Ha : 0 <= f a) by (apply Hn; left; reflexivity).
    assert (Hr : 0 <= sumZ f r) by (apply sumZ_nonneg; intros y Hy; apply Hn; right; exact Hy).
    destruct Hx as [->|Hx]; [lia|].
    specialize (IH (fun y Hy => Hn y (or_intror Hy)) Hx). lia.
  Qed.
  Lemma sumZ_pos_ex f l : 0 < sumZ f l -> exists x, In x l /\ 0 < f x.
  Proof.
    induction l as [|a r IH]; simpl; intros H; [lia|].
    destruct (Z_lt_le_dec 0 (f a)) as [Ha|Ha].
    - exists a. split; [left; reflexivity|exact Ha].
    - destruct IH as [x [Hx Hf]]; [lia|]. exists x. split; [right; exact Hx|exact Hf].
  Qed.
  Lemma sumZ_eq0 f l : (forall x, In x l -> 0 <= f x) -> sumZ f l = 0 -> forall x, In x l -> f x = 0.
  Proof.
    intros Hn H0 x Hx. pose proof (sumZ_member_le f l x Hn Hx). specialize (Hn x Hx). lia.
  Qed.
End Sum.

Lemma sumZ_map {A B} (f : B -> Z) (h : A -> B) l : sumZ f (map h l) = sumZ (fun x => f (h x)) l.
Proof. induction l as [|x r IH]; simpl; [reflexivity|rewrite IH; reflexivity]. Qed.
Lemma sumZ_concat {A} (f : A -> Z) ll : sumZ f (concat ll) = sumZ (fun l => sumZ f l) ll.
Proof. induction ll as [|l r IH]; simpl; [reflexivity|]. rewrite sumZ_app, IH. reflexivity. Qed.
Lemma sumZ_flat_map {A B} (f : B -> Z) (h : A -> list B) l :
  sumZ f (flat_map h l) = sumZ (fun x => sumZ f (h x)) l.
Proof. induction l as [|x r IH]; simpl; [reflexivity|]. rewrite sumZ_app, IH. reflexivity. Qed.
Lemma sumZ_swap {A B} (f : A -> B -> Z) la lb :
  sumZ (fun a => sumZ (f a) lb) la = sumZ (fun b => sumZ (fun a => f a b) la) lb.
Proof.
  induction la as [|a r IH]; simpl.
  - symmetry. apply sumZ_zero. reflexivity.
  - rewrite IH. rewrite <- sumZ_plus. reflexivity.
Qed.

(** Changing one summand of a duplicate-free list. *)
Lemma sumZ_change1 (f g : nat -> Z) (l : list nat) (u : nat) :
  NoDup l -> (forall x, In x l -> x <> u -> f x = g x) ->
  sumZ f l = sumZ g l + (if existsb (Nat.eqb u) l then f u - g u else 0).
Proof.
  induction l as [|x r IH]; intros Hnd Heq; simpl; [lia|].
  inversion Hnd as [|x' r' Hnx Hnr]; subst.
  destruct (Nat.eqb_spec u x) as [->|Hux]; simpl.
  - assert (Hs : sumZ f r = sumZ g r).
    { apply sumZ_ext. intros y Hy. apply Heq; [right; exact Hy|].
      intros ->. contradiction. }
    lia.
  - rewrite (Heq x) by (try (left; reflexivity); intros ->; congruence).
    rewrite IH; [|exact Hnr|intros y Hy Hyu; apply Heq; [right; exact Hy|exact Hyu]].
    destruct (existsb (Nat.eqb u) r); lia.
Qed.

Definition mem (u : nat) (l : list nat) : bool := existsb (Nat.eqb u) l.
Lemma mem_In u l : mem u l = true <-> In u l.
Proof.
  unfold mem. rewrite existsb_exists. split.
  - intros [x [Hx He]]. apply Nat.eqb_eq in He. subst. exact Hx.
  - intros H. exists u. split; [exact H|apply Nat.eqb_refl].
Qed.
Lemma mem_false u l : mem u l = false <-> ~ In u l.
Proof. rewrite <- mem_In. destruct (mem u l); split; congruence. Qed.
Lemma mem_spec u l : reflect (In u l) (mem u l).
Proof. destruct (mem u l) eqn:E; constructor; [apply mem_In; exact E|apply mem_false; exact E]. Qed.

Lemma sumZ_indicator (l : list nat) (u : nat) (c : nat -> Z) :
  NoDup l -> sumZ (fun x => if Nat.eqb x u then c x else 0) l = if mem u l then c u else 0.
Proof.
  intros Hnd. rewrite (sumZ_change1 _ (fun _ => 0) l u Hnd).
  - rewrite sumZ_zero by reflexivity. fold (mem u l). rewrite Nat.eqb_refl. destruct (mem u l); lia.
  - intros x _ Hx. destruct (Nat.eqb_spec x u); [congruence|reflexivity].
Qed.

(** Number of [true]s of [p] below [n]. *)
Definition countb (n : nat) (p : nat -> bool) : Z := sumZ (fun i => Z.b2z (p i)) (seq 0 n).

Lemma countb_nonneg n p : 0 <= countb n p.
Proof. apply sumZ_nonneg. intros x _. destruct (p x); simpl; lia. Qed.

Lemma countb_ext n p q : (forall i, (i < n)%nat -> p i = q i) -> countb n p = countb n q.
Proof. intros H. apply sumZ_ext. intros i Hi. apply in_seq in Hi. rewrite H by lia. reflexivity. Qed.

Lemma NoDup_filter_ {A} (p : A -> bool) l : NoDup l -> NoDup (filter p l).
Proof.
  induction 1 as [|x r Hx Hr IH]; simpl; [constructor|].
  destruct (p x); [constructor; [|exact IH]|exact IH].
  intros Hin. apply filter_In in Hin. apply Hx. tauto.
Qed.

Lemma countb_length n p : countb n p = Z.of_nat (length (filter p (seq 0 n))).
Proof. unfold countb. rewrite length_filter_sum. reflexivity. Qed.

Lemma NoDup_length_eq (l1 l2 : list nat) :
  NoDup l1 -> NoDup l2 -> (forall x, In x l1 <-> In x l2) -> length l1 = length l2.
Proof.
  intros H1 H2 H. apply Nat.le_antisymm; apply NoDup_incl_length; auto; intros x Hx; apply H; exact Hx.
Qed.

(** Generic option/fold helpers. *)
Fixpoint fold_opt {S O : Type} (step : S -> O -> option S) (s : S) (l : list O) : option S :=
  match l with
  | [] => Some s
  | o :: r => match step s o with Some s' => fold_opt step s' r | None => None end
  end.

Lemma fold_opt_app {S O} (step : S -> O -> option S) s l1 l2 :
  fold_opt step s (l1 ++ l2) =
  match fold_opt step s l1 with Some s' => fold_opt step s' l2 | None => None end.
Proof.
  revert s; induction l1 as [|o r IH]; intros s; simpl; [reflexivity|].
  destruct (step s o); [apply IH|reflexivity].
Qed.

Lemma fold_opt_inv {S O} (Inv : S -> Prop) (step : S -> O -> option S) :
  (forall s o s', Inv s -> step s o = Some s' -> Inv s') ->
  forall l s s', Inv s -> fold_opt step s l = Some s' -> Inv s'.
Proof.
  intros Hstep l; induction l as [|o r IH]; intros s s' Hs H; simpl in H.
  - inversion H; subst. exact Hs.
  - destruct (step s o) as [s1|] eqn:E; [|discriminate]. apply (IH s1 s' (Hstep _ _ _ Hs E) H).
Qed.

Lemma Forall_sumZ_zero {A} (f : A -> Z) l : Forall (fun x => f x = 0) l -> sumZ f l = 0.
Proof. intros H. apply sumZ_zero. intros x Hx. rewrite Forall_forall in H. apply H. exact Hx. Qed.
