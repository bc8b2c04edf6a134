(** Sorting.v - std::sort / std::unique on small value types, modelled by their specification-determined result. *)
From Verif Require Import Base.

Section Sort.
Context {A : Type}.
Variable leb : A -> A -> bool.
(** std::sort: an insertion sort; for a total order without equal-but-distinct keys the sorted permutation is
    unique, so the algorithm behind std::sort does not matter ([isort_unique]). *)
Fixpoint insert (x : A) (l : list A) : list A :=
  match l with
  | [] => [x]
  | y :: r => if leb x y then x :: l else y :: insert x r
  end.
Fixpoint isort (l : list A) : list A := match l with [] => [] | x :: r => insert x (isort r) end.

Lemma insert_perm x l : Permutation (insert x l) (x :: l).
Proof.
  induction l as [|y r IH]; simpl; [apply Permutation_refl|]. destruct (leb x y); [apply Permutation_refl|].
  eapply Permutation_trans; [apply perm_skip; exact IH|apply perm_swap].
Qed.
Lemma isort_perm l : Permutation (isort l) l.
Proof.
  induction l as [|x r IH]; simpl; [apply Permutation_refl|].
  eapply Permutation_trans; [apply insert_perm|apply perm_skip; exact IH].
Qed.
Lemma isort_In l x : In x (isort l) <-> In x l.
Proof. split; apply Permutation_in; [|apply Permutation_sym]; apply isort_perm. Qed.

Hypothesis leb_total : forall x y, leb x y = true \/ leb y x = true.
Hypothesis leb_trans : forall x y z, leb x y = true -> leb y z = true -> leb x z = true.
Definition lesort : A -> A -> Prop := fun x y => leb x y = true.

Lemma insert_sorted x l : StronglySorted lesort l -> StronglySorted lesort (insert x l).
Proof.
  induction l as [|y r IH]; intros Hs; simpl; [constructor; constructor|].
  inversion Hs as [|y' r' Hr Hy]; subst. destruct (leb x y) eqn:E.
  - constructor; [exact Hs|]. constructor; [exact E|].
    rewrite Forall_forall in Hy |- *. intros z Hz. apply (leb_trans x y z E). apply Hy. exact Hz.
  - constructor; [apply IH; exact Hr|]. rewrite Forall_forall in Hy |- *. intros z Hz.
    apply (Permutation_in z (insert_perm x r)) in Hz. destruct Hz as [<-|Hz].
    + destruct (leb_total x y) as [C|C]; [congruence|exact C].
    + apply Hy. exact Hz.
Qed.
Lemma isort_sorted l : StronglySorted lesort (isort l).
Proof. induction l as [|x r IH]; simpl; [constructor|apply insert_sorted; exact IH]. Qed.

Lemma sorted_unique l1 l2 :
  (forall x y, In x l1 -> In y l1 -> leb x y = true -> leb y x = true -> x = y) ->
  StronglySorted lesort l1 -> StronglySorted lesort l2 -> Permutation l1 l2 -> l1 = l2.
Proof using.
  revert l2. induction l1 as [|x r IH]; intros l2 Ha H1 H2 Hp.
  - apply Permutation_nil in Hp. congruence.
  - destruct l2 as [|y s]; [apply Permutation_sym, Permutation_nil in Hp; discriminate|].
    inversion H1 as [|? ? Hr Hx]; subst. inversion H2 as [|? ? Hs Hy]; subst.
    rewrite Forall_forall in Hx, Hy.
    assert (x = y).
    { assert (Hxin : In x (y :: s)) by (apply (Permutation_in x Hp); left; reflexivity).
      assert (Hyin : In y (x :: r)) by (apply (Permutation_in y (Permutation_sym Hp)); left; reflexivity).
      destruct Hxin as [C|Hxs]; [congruence|]. destruct Hyin as [C|Hyr]; [exact C|].
      apply Ha; [left; reflexivity|right; exact Hyr|apply Hx; exact Hyr|apply Hy; exact Hxs]. }
    subst y. f_equal. apply IH; auto.
    + intros a b Hia Hib. apply Ha; right; assumption.
    + apply Permutation_cons_inv with x. exact Hp.
Qed.
Lemma isort_unique l1 l2 :
  (forall x y, In x l1 -> In y l1 -> leb x y = true -> leb y x = true -> x = y) ->
  Permutation l1 l2 -> isort l1 = isort l2.
Proof.
  intros Ha Hp. apply sorted_unique.
  - intros x y Hx Hy. apply Ha; apply isort_In; assumption.
  - apply isort_sorted.
  - apply isort_sorted.
  - eapply Permutation_trans; [apply isort_perm|]. eapply Permutation_trans; [exact Hp|].
    apply Permutation_sym, isort_perm.
Qed.
End Sort.

(** Identifiers. *)
Definition nsort : list nat -> list nat := isort Nat.leb.
(** std::unique: drops elements equal to their predecessor. *)
Fixpoint uniq (l : list nat) : list nat :=
  match l with
  | [] => []
  | x :: r => match r with
              | [] => [x]
              | y :: _ => if Nat.eqb x y then uniq r else x :: uniq r
              end
  end.
Definition strict : list nat -> Prop := StronglySorted lt.

Lemma nsort_sorted l : StronglySorted le (nsort l).
Proof.
  assert (H : StronglySorted (lesort Nat.leb) (nsort l)).
  { apply isort_sorted.
    - intros x y. destruct (Nat.le_gt_cases x y); [left|right]; apply Nat.leb_le; lia.
    - intros x y z H1 H2. apply Nat.leb_le in H1, H2. apply Nat.leb_le. lia. }
  induction H as [|x r H IH Hx]; constructor; [exact IH|].
  eapply Forall_impl; [|exact Hx]. intros a Ha. apply Nat.leb_le. exact Ha.
Qed.
Lemma nsort_perm l : Permutation (nsort l) l. Proof. apply isort_perm. Qed.

Lemma uniq_In l x : In x (uniq l) <-> In x l.
Proof.
  induction l as [|y r IH]; [reflexivity|]. simpl. destruct r as [|z s]; [simpl; tauto|].
  destruct (Nat.eqb_spec y z) as [->|Hne].
  - rewrite IH. simpl. tauto.
  - change (In x (y :: uniq (z :: s)) <-> y = x \/ In x (z :: s)). simpl In at 1. rewrite IH. reflexivity.
Qed.
Lemma uniq_strict l : StronglySorted le l -> strict (uniq l).
Proof.
  induction l as [|y r IH]; intros Hs; [constructor|]. inversion Hs as [|? ? Hr Hy]; subst.
  simpl. destruct r as [|z s]; [constructor; constructor|].
  destruct (Nat.eqb_spec y z) as [->|Hne]; [apply IH; exact Hr|].
  constructor; [apply IH; exact Hr|]. rewrite Forall_forall. intros x Hx. apply (proj1 (uniq_In _ _)) in Hx.
  rewrite Forall_forall in Hy. inversion Hr as [|? ? Hs' Hz]; subst. rewrite Forall_forall in Hz.
  assert (y <= z)%nat by (apply Hy; left; reflexivity).
  destruct Hx as [<-|Hx]; [lia|]. specialize (Hz x Hx). lia.
Qed.
Lemma strict_NoDup l : strict l -> NoDup l.
Proof.
  induction 1 as [|x r H IH Hx]; constructor; [|exact IH].
  intros Hin. rewrite Forall_forall in Hx. specialize (Hx x Hin). lia.
Qed.
Lemma strict_ext l1 l2 : strict l1 -> strict l2 -> (forall x, In x l1 <-> In x l2) -> l1 = l2.
Proof.
  revert l2. induction l1 as [|x r IH]; intros l2 H1 H2 He.
  - destruct l2 as [|y s]; [reflexivity|]. exfalso. apply (proj2 (He y)). left. reflexivity.
  - destruct l2 as [|y s]; [exfalso; apply (proj1 (He x)); left; reflexivity|].
    inversion H1 as [|? ? Hr Hx]; subst. inversion H2 as [|? ? Hs Hy]; subst.
    rewrite Forall_forall in Hx, Hy.
    assert (x = y).
    { destruct (proj1 (He x) (or_introl eq_refl)) as [C|C]; [congruence|].
      destruct (proj2 (He y) (or_introl eq_refl)) as [D|D]; [congruence|].
      specialize (Hx y D). specialize (Hy x C). lia. }
    subst y. f_equal. apply IH; auto. intros z. split; intros Hz.
    + destruct (proj1 (He z) (or_intror Hz)) as [C|C]; [|exact C]. specialize (Hx z Hz). lia.
    + destruct (proj2 (He z) (or_intror Hz)) as [C|C]; [|exact C]. specialize (Hy z Hz). lia.
Qed.

(** std::sort followed by std::unique. *)
Definition sort_uniq (l : list nat) : list nat := uniq (nsort l).
Lemma sort_uniq_In l x : In x (sort_uniq l) <-> In x l.
Proof. unfold sort_uniq. rewrite uniq_In. apply isort_In. Qed.
Lemma sort_uniq_strict l : strict (sort_uniq l).
Proof. apply uniq_strict, nsort_sorted. Qed.
Lemma sort_uniq_ext l1 l2 : (forall x, In x l1 <-> In x l2) -> sort_uniq l1 = sort_uniq l2.
Proof.
  intros H. apply strict_ext; try apply sort_uniq_strict. intros x. rewrite !sort_uniq_In. apply H.
Qed.
