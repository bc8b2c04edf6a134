(** ParLoop.v - a parallel loop (tbb::parallel_for) as the set of all interleavings of its iterations.  Each iteration is a small
    state machine over the shared state; [par] lists every execution that runs all iterations to completion.  The loop is
    independent of the schedule if the remaining effects of its iterations commute. *)
From Verif Require Import Base.

(** One step of an iteration: [None] means that the iteration has finished.  [par step ls s s']: the iterations in local states
    [ls] started on the shared state [s] may leave the shared state [s']. *)
Inductive par {L S : Type} (step : L -> S -> option (L * S)) : list L -> S -> S -> Prop :=
| par_done : forall ls s, Forall (fun l => step l s = None) ls -> par step ls s s
| par_step : forall a l b s l' s' s'', step l s = Some (l', s') -> par step (a ++ l' :: b) s' s'' -> par step (a ++ l :: b) s s''.

Section Commute.
Context {L S C : Type}.
Variables (step : L -> S -> option (L * S)) (proj : S -> C) (rest : L -> C -> C) (Inv : list L -> S -> Prop).
Hypothesis Hstep : forall a l b s l' s', Inv (a ++ l :: b) s -> step l s = Some (l', s') ->
  Inv (a ++ l' :: b) s' /\ rest l (proj s) = rest l' (proj s').
Hypothesis Hcomm : forall a l b m c s x, Inv (a ++ l :: b ++ m :: c) s -> rest l (rest m x) = rest m (rest l x).
Hypothesis Hdone : forall a l b s x, Inv (a ++ l :: b) s -> step l s = None -> rest l x = x.

Lemma fold_front : forall b l x, (forall m, In m b -> forall y, rest l (rest m y) = rest m (rest l y)) ->
  rest l (fold_right rest x b) = fold_right rest (rest l x) b.
Proof using.
  induction b as [|m b IH]; intros l x Hc; cbn; [reflexivity|].
  rewrite Hc by (left; reflexivity). rewrite IH; [reflexivity|]. intros m' Hm. apply Hc. right. exact Hm.
Qed.
Lemma fold_bring a l b s x : Inv (a ++ l :: b) s -> fold_right rest x (a ++ l :: b) = fold_right rest (rest l x) (a ++ b).
Proof using Hcomm.
  intros HI. rewrite !fold_right_app. cbn [fold_right]. rewrite fold_front; [reflexivity|].
  intros m Hm y. apply in_split in Hm. destruct Hm as [b1 [b2 ->]]. apply (Hcomm a l b1 m b2 s y HI).
Qed.
Lemma fold_id ls s x : Inv ls s -> Forall (fun l => step l s = None) ls -> fold_right rest x ls = x.
Proof using Hdone.
  intros HI HF. rewrite Forall_forall in HF.
  assert (G : forall l, In l ls -> forall y, rest l y = y).
  { intros l Hl y. pose proof (HF l Hl) as E. apply in_split in Hl. destruct Hl as [a [b ->]]. apply (Hdone a l b s y HI E). }
  clear HI HF. induction ls as [|l ls IH]; cbn; [reflexivity|]. rewrite IH; [apply G; left; reflexivity|].
  intros m Hm. apply G. right. exact Hm.
Qed.
Theorem par_fold : forall ls s s', par step ls s s' -> Inv ls s -> proj s' = fold_right rest (proj s) ls.
Proof using All.
  induction 1 as [ls s HF|a l b s l' s' s'' E HP IH]; intros HI.
  - symmetry. apply (fold_id ls s); assumption.
  - destruct (Hstep _ _ _ _ _ _ HI E) as [HI' Er]. rewrite (IH HI').
    rewrite (fold_bring a l' b s' (proj s') HI'), (fold_bring a l b s (proj s) HI), Er. reflexivity.
Qed.
(** Executions preserve the invariant. *)
Theorem par_inv : forall ls s s', par step ls s s' -> Inv ls s -> exists ls', Inv ls' s' /\ Forall (fun l => step l s' = None) ls'.
Proof using Hstep.
  induction 1 as [ls s HF|a l b s l' s' s'' E HP IH]; intros HI; [exists ls; split; assumption|].
  destruct (Hstep _ _ _ _ _ _ HI E) as [HI' _]. apply IH. exact HI'.
Qed.
End Commute.

(** The order of the iterations is irrelevant if they commute. *)
Lemma fold_perm {L C} (rest : L -> C -> C) (l1 l2 : list L) (x : C) :
  Permutation l1 l2 -> NoDup l1 -> (forall l m, In l l1 -> In m l1 -> l <> m -> forall y, rest l (rest m y) = rest m (rest l y)) ->
  fold_right rest x l1 = fold_right rest x l2.
Proof.
  intros HP. revert x. induction HP as [|a l l' HP IH|a b l|l l' l'' H1 IH1 H2 IH2]; intros x ND HC; cbn.
  - reflexivity.
  - f_equal. inversion ND; subst. apply IH; [assumption|]. intros p q Hp Hq. apply HC; right; assumption.
  - apply HC; [left; reflexivity|right; left; reflexivity|]. inversion ND as [|? ? Hn _]; subst. intros ->. apply Hn. left. reflexivity.
  - rewrite IH1 by assumption. apply IH2; [eapply Permutation_NoDup; eassumption|].
    intros p q Hp Hq. apply HC; apply (Permutation_in _ (Permutation_sym H1)); assumption.
Qed.
(** A step-preserved property of the shared state holds at the end. *)
Lemma par_preserves {L S} (step : L -> S -> option (L * S)) (Q : S -> Prop) :
  (forall l s l' s', Q s -> step l s = Some (l', s') -> Q s') -> forall ls s s', par step ls s s' -> Q s -> Q s'.
Proof. intros HS. induction 1 as [ls s HF|a l b s l' s' s'' E HP IH]; intros HQ; [exact HQ|]. apply IH. eapply HS; eassumption. Qed.
Lemma par_nil {L S} (step : L -> S -> option (L * S)) s s' : par step [] s s' -> s' = s.
Proof. intros HP. inversion HP as [|a l b]; [reflexivity|]. destruct a; discriminate. Qed.
(** Running the iterations one after the other is one of the executions. *)
Inductive solo {L S} (step : L -> S -> option (L * S)) : L -> S -> S -> Prop :=
| solo_done : forall l s, (forall s', step l s' = None) -> solo step l s s
| solo_step : forall l s l' s' s'', step l s = Some (l', s') -> solo step l' s' s'' -> solo step l s s''.
Inductive seqp {L S} (step : L -> S -> option (L * S)) : list L -> S -> S -> Prop :=
| seqp_nil : forall s, seqp step [] s s
| seqp_cons : forall l ls s s' s'', solo step l s s' -> seqp step ls s' s'' -> seqp step (l :: ls) s s''.
Lemma seqp_par {L S} (step : L -> S -> option (L * S)) : forall ls s s', seqp step ls s s' ->
  forall pre, Forall (fun l => forall s, step l s = None) pre -> par step (pre ++ ls) s s'.
Proof.
  induction 1 as [s|l ls s s' s'' HS HQ IH]; intros pre HF.
  - rewrite app_nil_r. apply par_done. eapply Forall_impl; [|exact HF]. cbn. intros l Hl. apply Hl.
  - induction HS as [l s HD|l s l' s1 s2 E HS IHS].
    + replace (pre ++ l :: ls) with ((pre ++ [l]) ++ ls) by (rewrite <- app_assoc; reflexivity). apply IH.
      apply Forall_app. split; [exact HF|]. constructor; [exact HD|constructor].
    + apply (par_step step pre l ls s l' s1 s'' E). apply IHS; assumption.
Qed.
