(** Sorted children and the groups cut from them. *)
From Coq Require Import List Arith Lia Bool Permutation Sorted ZifyBool.
From Verif Require Import Base Batch.
Import ListNotations.
Local Open Scope nat_scope.

Definition bef (t : ctree) (a b : nat) : Prop := before t b a = false.

Lemma bef_trans t a b c : bef t a b -> bef t b c -> bef t a c.
Proof.
  unfold bef, before, vlt, veq.
  destruct (ct_ver t a), (ct_ver t b), (ct_ver t c); lia.
Qed.
Lemma bef_asym t a b : before t a b = true -> bef t a b.
Proof.
  unfold bef, before, vlt, veq.
  destruct (ct_ver t a), (ct_ver t b); lia.
Qed.

Lemma veq_eq a b : veq a b = true <-> a = b.
Proof.
  unfold veq. destruct a, b; try (split; congruence).
  rewrite Nat.eqb_eq. split; congruence.
Qed.

Lemma sinsert_perm lt x l : Permutation (sinsert lt x l) (x :: l).
Proof.
  induction l as [|y l IH]; cbn [sinsert]; [reflexivity|].
  destruct (lt y x); [|reflexivity]. rewrite IH. apply perm_swap.
Qed.
Lemma isort_perm lt l : Permutation (isort lt l) l.
Proof.
  unfold isort. induction l as [|x l IH]; cbn [fold_right]; [constructor|].
  rewrite sinsert_perm. constructor. exact IH.
Qed.
Lemma sinsert_sorted t x l : StronglySorted (bef t) l -> StronglySorted (bef t) (sinsert (before t) x l).
Proof.
  induction 1 as [|y l H IH F]; cbn [sinsert].
  - constructor; constructor.
  - destruct (before t y x) eqn:E.
    + constructor; [exact IH|]. rewrite (sinsert_perm (before t) x l).
      constructor; [apply bef_asym; exact E|exact F].
    + constructor; [constructor; assumption|]. constructor; [exact E|].
      eapply Forall_impl; [|exact F]. intros z Hz. eapply bef_trans; [exact E|exact Hz].
Qed.
Lemma isort_sorted t l : StronglySorted (bef t) (isort (before t) l).
Proof.
  unfold isort. induction l as [|x l IH]; cbn [fold_right]; [constructor|]. apply sinsert_sorted. exact IH.
Qed.

Lemma childs_in t u v : In v (childs t u) <-> v < ct_n t /\ ct_parent t v = u /\ v <> u.
Proof.
  unfold childs. split; intros H.
  - apply (Permutation_in _ (isort_perm _ _)) in H. apply filter_In in H.
    rewrite in_seq in H. lia.
  - apply (Permutation_in _ (Permutation_sym (isort_perm _ _))). apply filter_In. rewrite in_seq. lia.
Qed.
Lemma childs_nodup t u : NoDup (childs t u).
Proof.
  unfold childs. eapply Permutation_NoDup; [symmetry; apply isort_perm|].
  apply NoDup_filter, seq_NoDup.
Qed.
Lemma childs_sorted t u : StronglySorted (bef t) (childs t u).
Proof. apply isort_sorted. Qed.

Lemma ssorted_app {A} (R : A -> A -> Prop) l1 l2 : StronglySorted R (l1 ++ l2) -> StronglySorted R l2.
Proof. induction l1 as [|x l1 IH]; cbn; [auto|]. intros H. apply StronglySorted_inv in H. apply IH, H. Qed.

(** the leading children of version k *)
Fixpoint takev (t : ctree) (k : nat) (l : list nat) : list nat :=
  match l with
  | [] => []
  | v :: l' => if veq (ct_ver t v) (Some k) then v :: takev t k l' else []
  end.

Definition isk (t : ctree) (k v : nat) : bool := veq (ct_ver t v) (Some k).

Lemma takev_in t k l v : In v (takev t k l) -> In v l /\ ct_ver t v = Some k.
Proof.
  induction l as [|x l IH]; cbn [takev]; [intros []|].
  destruct (veq (ct_ver t x) (Some k)) eqn:E; [|intros []].
  intros [->|H]; [|destruct (IH H); split; [right|]; assumption].
  split; [left; reflexivity|apply veq_eq; exact E].
Qed.

(** no version k behind a larger version *)
Lemma sorted_no_more t k x l : StronglySorted (bef t) (x :: l) -> vlt (Some k) (ct_ver t x) = true ->
  filter (isk t k) l = [].
Proof.
  intros H Hx. apply StronglySorted_inv in H. destruct H as [_ F].
  induction F as [|y l Hy F IH]; cbn [filter]; [reflexivity|].
  destruct (isk t k y) eqn:E; [|exact IH]. unfold isk in E. apply veq_eq in E.
  exfalso. revert Hy Hx. unfold bef, before, vlt, veq. rewrite E. destruct (ct_ver t x); lia.
Qed.

Lemma takev_filter t k l : StronglySorted (bef t) l ->
  (forall x, In x l -> isk t k x = true \/ vlt (Some k) (ct_ver t x) = true) ->
  takev t k l = filter (isk t k) l.
Proof.
  induction l as [|x l IH]; intros H Hv; cbn [takev filter]; [reflexivity|]. fold (isk t k x).
  pose proof (StronglySorted_inv H) as [H' F].
  destruct (isk t k x) eqn:E.
  - rewrite IH; auto. intros y Hy. apply Hv. right. exact Hy.
  - destruct (Hv x (or_introl eq_refl)) as [E'|E']; [congruence|].
    rewrite (sorted_no_more t k x l H E'). reflexivity.
Qed.

Lemma skipv_filter t k l : StronglySorted (bef t) l -> takev t k (skipv t k l) = filter (isk t k) l.
Proof.
  induction l as [|x l IH]; intros H; cbn [skipv filter]; [reflexivity|]. fold (isk t k x).
  destruct (isk t k x) eqn:E.
  - cbn [takev]. fold (isk t k x). rewrite E. f_equal. apply StronglySorted_inv in H. destruct H as [H F].
    apply takev_filter; [exact H|]. intros y Hy. rewrite Forall_forall in F. specialize (F y Hy).
    revert F E. unfold isk, bef, before, vlt, veq. destruct (ct_ver t x), (ct_ver t y); lia.
  - apply IH. apply StronglySorted_inv in H. apply H.
Qed.

Lemma skipv_suffix t k l : exists p, l = p ++ skipv t k l.
Proof.
  induction l as [|x l IH]; cbn [skipv]; [exists []; reflexivity|].
  destruct (veq (ct_ver t x) (Some k)); [exists []; reflexivity|].
  destruct IH as [p E]. exists (x :: p). cbn. f_equal. exact E.
Qed.
Lemma skipv_head t k l v r : skipv t k l = v :: r -> ct_ver t v = Some k.
Proof.
  induction l as [|x l IH]; cbn [skipv]; [discriminate|].
  destruct (veq (ct_ver t x) (Some k)) eqn:E; [|exact IH].
  intros H. injection H as <- <-. apply veq_eq. exact E.
Qed.

Lemma sorted_end t k x l y : StronglySorted (bef t) (x :: l) -> ct_ver t x = Some k ->
  In y l -> ct_ver t y = Some k -> ct_end t y <= ct_end t x.
Proof.
  intros H Ex Hy Ey. apply StronglySorted_inv in H. destruct H as [_ F].
  rewrite Forall_forall in F. specialize (F y Hy).
  revert F. unfold bef, before, vlt, veq. rewrite Ex, Ey. lia.
Qed.

Lemma more_spec t k : forall l lo hi g r, StronglySorted (bef t) l ->
  (forall w, In w (takev t k l) -> ct_end t w <= hi) ->
  more t k lo hi l = (g, r) ->
  l = g ++ r /\ takev t k l = g ++ takev t k r /\
  forall y, In y (takev t k r) -> ct_end t y < lo /\ forall d, In d g -> ct_end t y < ct_start t d.
Proof.
  induction l as [|w l IH]; intros lo hi g r Hs Hh E; cbn [more] in E.
  - injection E as <- <-. cbn. split; [reflexivity|]. split; [reflexivity|]. intros y [].
  - cbn [takev] in Hh. destruct (veq (ct_ver t w) (Some k)) eqn:Ev; cbn [andb] in E.
    + pose proof Ev as Ev'. apply veq_eq in Ev'. destruct (intersect lo hi (ct_start t w) (ct_end t w)) eqn:Ei.
      * destruct (more t k (min lo (ct_start t w)) (max hi (ct_end t w)) l) as [g' r'] eqn:Em.
        injection E as <- <-. pose proof (StronglySorted_inv Hs) as [Hs' _].
        assert (Hw : ct_end t w <= hi) by (apply Hh; left; reflexivity).
        destruct (IH _ _ _ _ Hs' (fun x Hx => Nat.le_trans _ _ _ (Hh x (or_intror Hx)) (Nat.le_max_l _ _)) Em) as (A & B & C).
        split; [cbn; congruence|]. split; [cbn [takev]; rewrite Ev; cbn; congruence|].
        intros y Hy. destruct (C y Hy) as [C1 C2]. split; [lia|].
        intros d [->|Hd]; [lia|auto].
      * injection E as <- <-. split; [reflexivity|]. split; [reflexivity|].
        intros y Hy. split; [|intros d []]. cbn [takev] in Hy. rewrite Ev in Hy.
        specialize (Hh w (or_introl eq_refl)).
        assert (Hw : ct_end t w < lo) by (unfold intersect in Ei; lia).
        destruct Hy as [->|Hy]; [exact Hw|]. apply takev_in in Hy. destruct Hy as [Hy Ey].
        pose proof (sorted_end t k w l y Hs Ev' Hy Ey). lia.
    + injection E as <- <-. split; [reflexivity|]. split; [reflexivity|].
      intros y Hy. cbn [takev] in Hy. rewrite Ev in Hy. destruct Hy.
Qed.

(** the group cut off an element of the queue *)
Lemma group_spec t k v l g r : StronglySorted (bef t) (v :: l) -> ct_ver t v = Some k ->
  more t k (ct_start t v) (ct_end t v) l = (g, r) ->
  v :: l = (v :: g) ++ r /\ takev t k (v :: l) = (v :: g) ++ takev t k r /\
  forall y d, In y (takev t k r) -> In d (v :: g) -> ct_end t y < ct_start t d.
Proof.
  intros Hs Ev E. pose proof (StronglySorted_inv Hs) as [Hs' _].
  destruct (more_spec t k l (ct_start t v) (ct_end t v) g r Hs') as (A & B & C); [|exact E|].
  - intros w Hw. apply takev_in in Hw. apply (sorted_end t k v l w Hs Ev); apply Hw.
  - split; [cbn; congruence|]. split.
    + cbn [takev]. assert (X : veq (ct_ver t v) (Some k) = true) by (apply veq_eq; exact Ev).
      rewrite X. cbn. congruence.
    + intros y d Hy Hd. destruct (C y Hy) as [C1 C2]. destruct Hd as [->|Hd]; [exact C1|auto].
Qed.

Lemma repush_takev t k r : flat_map (takev t k) (repush t k r) = takev t k r.
Proof.
  destruct r as [|w r]; cbn [repush]; [reflexivity|].
  destruct (veq (ct_ver t w) (Some k)) eqn:E; cbn [flat_map takev]; rewrite E; [|reflexivity].
  apply app_nil_r.
Qed.
Lemma push_takev t k u : flat_map (takev t k) (push_pq t k u) = filter (isk t k) (childs t u).
Proof.
  rewrite <- (skipv_filter t k _ (childs_sorted t u)). unfold push_pq.
  destruct (skipv t k (childs t u)) as [|v l]; cbn [flat_map]; [reflexivity|]. apply app_nil_r.
Qed.

(** ** the roots of a version *)
Lemma stream_in t u : forall l last x, In x (stream_versions t u last l) ->
  vlt x (ct_ver t u) = true /\ exists v, In v l /\ ct_ver t v = x.
Proof.
  induction l as [|v l IH]; intros last x H; cbn [stream_versions] in H; [destruct H|].
  destruct (negb (veq (ct_ver t v) last) && vlt (ct_ver t v) (ct_ver t u)) eqn:E.
  - destruct H as [<-|H].
    + split; [lia|]. exists v. split; [left|]; reflexivity.
    + destruct (IH _ _ H) as (A & w & B & C). split; [exact A|]. exists w. split; [right|]; assumption.
  - destruct (IH _ _ H) as (A & w & B & C). split; [exact A|]. exists w. split; [right|]; assumption.
Qed.
Lemma stream_complete t u k : vlt (Some k) (ct_ver t u) = true -> forall l last v,
  In v l -> ct_ver t v = Some k -> last <> Some k -> In (Some k) (stream_versions t u last l).
Proof.
  intros Hk. induction l as [|w l IH]; intros last v Hv Ev Hl; [destruct Hv|]. cbn [stream_versions].
  destruct (veq (ct_ver t w) (Some k)) eqn:E.
  - apply veq_eq in E. rewrite E.
    replace (veq (Some k) last) with false.
    + cbn [negb andb]. rewrite Hk. left. reflexivity.
    + symmetry. destruct (veq (Some k) last) eqn:X; [|reflexivity]. apply veq_eq in X. congruence.
  - assert (Hn : ct_ver t w <> Some k) by (intros X; rewrite X in E; cbn in E; rewrite Nat.eqb_refl in E; discriminate).
    destruct Hv as [->|Hv]; [congruence|].
    destruct (negb (veq (ct_ver t w) last) && vlt (ct_ver t w) (ct_ver t u)); [right|]; eapply IH; eauto.
Qed.
Lemma stream_once_after t u k : forall l last, StronglySorted (bef t) l ->
  (last = Some k \/ (forall v, In v l -> ct_ver t v <> Some k)) ->
  (forall v, In v l -> vlt (ct_ver t v) (Some k) = false) ->
  filter (veq (Some k)) (stream_versions t u last l) = [].
Proof.
  induction l as [|w l IH]; intros last Hs Hl Hge; cbn [stream_versions]; [reflexivity|].
  pose proof (StronglySorted_inv Hs) as [Hs' F].
  assert (Hge' : forall v, In v l -> vlt (ct_ver t v) (Some k) = false) by (intros v Hv; apply Hge; right; exact Hv).
  assert (Hrec : filter (veq (Some k)) (stream_versions t u (ct_ver t w) l) = []).
  { apply IH; auto. destruct (veq (ct_ver t w) (Some k)) eqn:E.
    - left. apply veq_eq. exact E.
    - right. intros v Hv Ev. destruct Hl as [Hl|Hl].
      + assert (Hw : vlt (Some k) (ct_ver t w) = true).
        { specialize (Hge w (or_introl eq_refl)). revert Hge E. unfold vlt, veq. destruct (ct_ver t w); lia. }
        pose proof (sorted_no_more t k w l Hs Hw) as X.
        assert (Y : In v (filter (isk t k) l)) by (apply filter_In; split; [exact Hv|apply veq_eq; exact Ev]).
        rewrite X in Y. destruct Y.
      + apply (Hl v); [right; exact Hv|exact Ev]. }
  destruct (negb (veq (ct_ver t w) last) && vlt (ct_ver t w) (ct_ver t u)) eqn:E; [|exact Hrec].
  cbn [filter]. destruct (veq (Some k) (ct_ver t w)) eqn:E2; [|exact Hrec].
  apply veq_eq in E2. exfalso. destruct Hl as [Hl|Hl].
  - rewrite <- E2, Hl in E. cbn in E. rewrite Nat.eqb_refl in E. discriminate.
  - apply (Hl w); [left; reflexivity|symmetry; exact E2].
Qed.
Lemma stream_once t u k : forall l last, StronglySorted (bef t) l ->
  length (filter (veq (Some k)) (stream_versions t u last l)) <= 1.
Proof.
  induction l as [|w l IH]; intros last Hs; cbn [stream_versions]; [cbn; lia|].
  pose proof (StronglySorted_inv Hs) as [Hs' F].
  destruct (negb (veq (ct_ver t w) last) && vlt (ct_ver t w) (ct_ver t u)) eqn:E; [|apply IH; exact Hs'].
  cbn [filter]. destruct (veq (Some k) (ct_ver t w)) eqn:E2; [|apply IH; exact Hs'].
  apply veq_eq in E2. rewrite (stream_once_after t u k l (ct_ver t w)); auto.
  intros v Hv. rewrite Forall_forall in F. specialize (F v Hv).
  revert F. unfold bef, before, vlt, veq. rewrite <- E2. destruct (ct_ver t v); lia.
Qed.

Lemma version_roots_in t k u : In u (version_roots t k) <->
  u < ct_n t /\ vlt (Some k) (ct_ver t u) = true /\
  exists v, v < ct_n t /\ ct_parent t v = u /\ v <> u /\ ct_ver t v = Some k.
Proof.
  unfold version_roots. rewrite in_flat_map. split.
  - intros (x & Hx & Hu). apply in_map_iff in Hu. destruct Hu as (y & -> & Hy).
    apply filter_In in Hy. destruct Hy as [Hy Ey]. apply veq_eq in Ey. subst y.
    apply stream_in in Hy. destruct Hy as (A & v & Hv & Ev). apply childs_in in Hv.
    rewrite in_seq in Hx. split; [lia|]. split; [exact A|]. exists v. tauto.
  - intros (Hu & A & v & Hv & Hp & Hn & Ev). exists u. rewrite in_seq. split; [lia|].
    apply in_map_iff. exists (Some k). split; [reflexivity|]. apply filter_In. split; [|apply veq_eq; reflexivity].
    apply (stream_complete t u k A _ None v); [apply childs_in; auto|exact Ev|discriminate].
Qed.
Lemma version_roots_nodup t k : NoDup (version_roots t k).
Proof.
  unfold version_roots. generalize (seq_NoDup (ct_n t) 0). induction (seq 0 (ct_n t)) as [|u l IH]; intros ND; [constructor|].
  cbn [flat_map]. apply NoDup_cons_iff in ND. destruct ND as [Hu ND]. specialize (IH ND).
  pose proof (stream_once t u k (childs t u) None (childs_sorted t u)) as L.
  destruct (filter (veq (Some k)) (stream_versions t u None (childs t u))) as [|x [|y q]]; cbn in L |- *; try lia.
  - exact IH.
  - constructor; [|exact IH]. intros H. apply in_flat_map in H. destruct H as (w & Hw & H).
    apply in_map_iff in H. destruct H as (z & -> & _). contradiction.
Qed.
