(** Invariants of the contraction protocol ([RegTree]). *)
From Coq Require Import List Arith Lia Bool.
From Verif Require Import Base Batch RegTree.
Import ListNotations.
Local Open Scope nat_scope.

(** nodes whose lock a thread holds *)
Fixpoint holds (p : pc) : list nat :=
  match p with
  | Idle | RAcq _ _ | RLoW _ _ | CRead _ | CAcq1 _ _ | CStart _ _ | CEnd _ _ _ | CAcqU _ _ _ _ => []
  | RChk _ v | RPar v _ | RPend v _ | RUp v _ | RHiW v _ => [v]
  | RLoV _ w => [w]
  | RReV v w | RDbl v w | RFin v w _ | RFinC v w _ | RWr v w | RWr2 v w => [v; w]
  | CAcq2 x y => [Nat.min x y]
  | CTest x y | CUnr x y | CUnr2 x y => [x; y]
  | CDec x _ _ _ => [x]
  | Rel l k => l ++ holds k
  end.

(** the contraction a thread is executing *)
Fixpoint phase (p : pc) : option (nat * nat) :=
  match p with
  | CStart x y | CEnd x y _ | CAcqU x y _ _ | CDec x y _ _ => Some (x, y)
  | Rel _ k => phase k
  | _ => None
  end.

Definition stale (mx : nat) (g : G) (x y : nat) : Prop :=
  par g y = x \/ mx < wt g x + wt g y \/ en g y = false.

Definition kids_before (n : nat) (g : G) (y s : nat) : Prop :=
  forall v, v < n -> v <> y -> par g v = y -> exists s0 e0, iv g v = Some (s0, e0) /\ e0 <= s.

(** where a thread continues after releasing nodes *)
Definition rel_ok (k : pc) : Prop :=
  match k with Idle | RPar _ _ | RLoW _ _ | CRead _ | CStart _ _ => True | _ => False end.

Fixpoint pcok (n mx : nat) (g : G) (p : pc) : Prop :=
  match p with
  | Idle => True
  | RAcq u v | RChk u v => u < n /\ v < n /\ u <> v
  | RPar v w | RPend v w | RUp v w | RDbl v w => v < n /\ w < n /\ v <> w /\ par g v = v
  | RHiW v w => v < n /\ w < n /\ v < w /\ par g v = v
  | RLoW v w | RLoV v w => v < n /\ w < n /\ w < v
  | RReV v w => v < n /\ w < n /\ v <> w
  | RFin v w x | RFinC v w x =>
      v < n /\ w < n /\ x < n /\ v <> w /\ x <> v /\ par g v = v /\ (par g w = w \/ pend g w <> 0)
  | RWr v w => v < n /\ w < n /\ v <> w /\ par g v = v /\ (par g w = w \/ pend g w <> 0)
  | RWr2 v w => v < n /\ w < n /\ v <> w /\ par g v = v /\ pend g w <> 0
  | CRead y => y < n
  | CAcq1 x y | CAcq2 x y | CTest x y => x < n /\ y < n /\ x <> y /\ stale mx g x y
  | CUnr x y | CUnr2 x y => x < n /\ y < n /\ x <> y /\ par g y = x /\ en g y = true /\ en g x = true /\ mx < wt g x + wt g y
  | CStart x y => x < n /\ y < n /\ x <> y /\ par g y = x /\ en g y = false /\ iv g y = None
  | CEnd x y s => x < n /\ y < n /\ x <> y /\ par g y = x /\ en g y = false /\ iv g y = None /\ s <= ix g /\ kids_before n g y s
  | CAcqU x y s e | CDec x y s e => x < n /\ y < n /\ x <> y /\ par g y = x /\ en g y = false /\ iv g y = None
      /\ s < e <= ix g /\ kids_before n g y s
  | Rel l k => Forall (fun a => a < n) l /\ rel_ok k /\ pcok n mx g k
  end.

Lemma upd_same {A} (f : nat -> A) a x : upd f a x a = x.
Proof. unfold upd. now rewrite Nat.eqb_refl. Qed.
Lemma upd_other {A} (f : nat -> A) a x b : b <> a -> upd f a x b = f b.
Proof. intro H. unfold upd. now rewrite (proj2 (Nat.eqb_neq _ _) H). Qed.
Lemma upd_cases {A} (f : nat -> A) a x b : (b = a /\ upd f a x b = x) \/ (b <> a /\ upd f a x b = f b).
Proof. destruct (Nat.eq_dec b a); [left; subst; now rewrite upd_same|right; now rewrite upd_other]. Qed.

Ltac ucase :=
  repeat match goal with
  | H : context [upd ?f ?a ?x ?b] |- _ =>
      let E := fresh "Eu" in let D := fresh "Du" in
      destruct (upd_cases f a x b) as [[D E]|[D E]]; rewrite E in *; clear E; try subst b; try subst a
  | |- context [upd ?f ?a ?x ?b] =>
      let E := fresh "Eu" in let D := fresh "Du" in
      destruct (upd_cases f a x b) as [[D E]|[D E]]; rewrite E in *; clear E; try subst b; try subst a
  end.

(** Disabled nodes are registered and have no pending contraction. *)
Definition dis (g : G) : Prop := forall u, en g u = false -> par g u <> u /\ pend g u = 0.

(** What a step of a thread at [p] may change. *)
Record guar (mx : nat) (p : pc) (g g' : G) : Prop := {
  gu_par : forall a, par g' a <> par g a -> In a (holds p) /\ (par g a = a \/ en g a = true)
           /\ (par g' a = a \/ (par g a = a /\ en g (par g' a) = true));
  gu_pend : forall a, pend g' a <> pend g a -> In a (holds p);
  gu_en : forall a, en g' a <> en g a -> In a (holds p) /\ en g' a = false;
  gu_wt : forall a, wt g a <= wt g' a;
  gu_iv : forall a i, iv g a = Some i -> iv g' a = Some i;
  gu_iv0 : forall a, iv g' a <> iv g a -> exists x, phase p = Some (x, a);
  gu_ix : ix g <= ix g';
  gu_stale : forall x y, stale mx g x y -> x <> y -> stale mx g' x y }.

Ltac eqb :=
  repeat match goal with
  | H : (_ =? _) = true |- _ => apply Nat.eqb_eq in H
  | H : (_ =? _) = false |- _ => apply Nat.eqb_neq in H
  | H : (_ <? _) = true |- _ => apply Nat.ltb_lt in H
  | H : (_ <? _) = false |- _ => apply Nat.ltb_ge in H
  | H : (_ <=? _) = true |- _ => apply Nat.leb_le in H
  | H : (_ <=? _) = false |- _ => apply Nat.leb_gt in H
  | H : (_ && _) = true |- _ => apply andb_true_iff in H; destruct H
  | H : negb _ = true |- _ => apply negb_true_iff in H
  | H : negb _ = false |- _ => apply negb_false_iff in H
  end.

(** case analysis of a step *)
Ltac exec_cases H :=
  unfold exec, acquire, fnd, after in H; cbv zeta in H;
  repeat match type of H with
  | context [match lk ?g ?a with _ => _ end] => let E := fresh "El" in destruct (lk g a) eqn:E
  | context [if ?b then _ else _] => let E := fresh "Eb" in destruct b eqn:E
  | context [match ?l with [] => _ | _ => _ end] => destruct l
  end; try discriminate H; injection H as <- <-.

Lemma guar_refl mx p g g' :
  par g' = par g -> pend g' = pend g -> en g' = en g -> wt g' = wt g -> iv g' = iv g -> ix g <= ix g' ->
  guar mx p g g'.
Proof.
  intros E1 E2 E3 E4 E5 E6. split; try (intros; congruence); auto.
  - intros a. now rewrite E4.
  - intros x y. unfold stale. now rewrite E1, E3, E4.
Qed.

Lemma exec_guar n mx t g p g' p' :
  pcok n mx g p -> dis g -> exec mx t g p = Some (g', p') -> guar mx p g g'.
Proof.
  intros OK D X.
  destruct p; exec_cases X; try (apply guar_refl; cbn; auto; lia); cbn [pcok] in OK.
  - (* RWr *) split; cbn [set_pend par pend en wt iv ix holds]; try congruence; auto.
    intros a. ucase; cbn; auto; congruence.
  - (* RWr2 *) destruct OK as (? & ? & ? & P & Q). split; cbn [set_par set_ver par pend en wt iv ix holds phase]; try congruence; auto.
    + intros a. ucase; [|congruence]. intros _. repeat split; [now left|now left|].
      right. split; [exact P|]. destruct (en g w) eqn:E; [reflexivity|]. destruct (D w E). lia.
    + intros a b [S|[S|S]]; unfold stale; cbn; auto. ucase; auto. congruence.
  - (* CTest *) eqb. split; cbn [merge par pend en wt iv ix holds phase]; try congruence; auto.
    + intros a. ucase; [|congruence]. cbn; auto.
    + intros a. ucase; lia.
    + intros a b [S|[S|S]]; unfold stale; cbn; auto; ucase; auto; right; left; lia.
  - (* CUnr *) split; cbn [set_pend par pend en wt iv ix holds]; try congruence; auto.
    intros a. ucase; cbn; auto; congruence.
  - (* CUnr2 *) destruct OK as (? & ? & ? & P & Q & Q' & W). split; cbn [set_par set_ver par pend en wt iv ix holds phase]; try congruence; auto.
    + intros a. ucase; [|congruence]. intros _. cbn; auto.
    + intros a b [S|[S|S]] N; unfold stale; cbn; auto. ucase; auto. right; left. congruence.
  - (* CDec *) destruct OK as (? & ? & ? & P & Q & W & ? & K). split; cbn [set_iv set_pend par pend en wt iv ix holds phase]; try congruence; auto.
    + intros a. ucase; cbn; auto; congruence.
    + intros a i E. ucase; congruence.
    + intros a. ucase; eauto. congruence.
Qed.

Definition eqd (a b : nat) : a = b \/ a <> b. Proof. lia. Qed.

Lemma par_keep mx p g g' a : guar mx p g g' -> ~ In a (holds p) -> par g' a = par g a.
Proof. intros Gu N. destruct (Nat.eq_dec (par g' a) (par g a)); auto. destruct (gu_par _ _ _ _ Gu a n). tauto. Qed.
Lemma pend_keep mx p g g' a : guar mx p g g' -> ~ In a (holds p) -> pend g' a = pend g a.
Proof. intros Gu N. destruct (Nat.eq_dec (pend g' a) (pend g a)); auto. destruct N. eapply gu_pend; eauto. Qed.
Lemma en_keep mx p g g' a : guar mx p g g' -> ~ In a (holds p) -> en g' a = en g a.
Proof. intros Gu N. destruct (bool_dec (en g' a) (en g a)); auto. destruct (gu_en _ _ _ _ Gu a n). tauto. Qed.
Lemma en_off mx p g g' a : guar mx p g g' -> en g a = false -> en g' a = false.
Proof. intros Gu N. destruct (bool_dec (en g' a) (en g a)); [congruence|]. now destruct (gu_en _ _ _ _ Gu a n). Qed.
Lemma par_dis mx p g g' a : guar mx p g g' -> par g a <> a -> en g a = false -> par g' a = par g a.
Proof. intros Gu N E. destruct (Nat.eq_dec (par g' a) (par g a)); auto. destruct (gu_par _ _ _ _ Gu a n) as (_ & [?|?] & _); congruence. Qed.
Lemma iv_keep mx p g g' a : guar mx p g g' -> (forall x, phase p <> Some (x, a)) -> iv g' a = iv g a.
Proof.
  intros Gu N. destruct (iv g a) eqn:E; [eapply gu_iv; eauto|]. destruct (iv g' a) eqn:E'; auto.
  destruct (gu_iv0 _ _ _ _ Gu a) as (x & Hx); [congruence|]. exfalso. eapply N; eauto.
Qed.

Lemma kids_keep mx p g g' n y s : guar mx p g g' -> par g y <> y -> en g y = false -> kids_before n g y s -> kids_before n g' y s.
Proof.
  intros Gu N E K v L D P. destruct (Nat.eq_dec (par g' v) (par g v)) as [Q|Q].
  - destruct (K v L D) as (a & b & I & Le); [congruence|]. exists a, b. split; [eapply gu_iv; eauto|auto].
  - destruct (gu_par _ _ _ _ Gu v Q) as (_ & _ & [R|(_ & R)]); congruence.
Qed.

Lemma pcok_frame n mx p q g g' :
  guar mx p g g' -> (forall a, In a (holds p) -> ~ In a (holds q)) ->
  (forall x x' y, phase q = Some (x, y) -> phase p <> Some (x', y)) ->
  pcok n mx g q -> pcok n mx g' q.
Proof.
  intros Gu D Ph. assert (D' : forall a, In a (holds q) -> ~ In a (holds p)) by firstorder. clear D.
  pose proof (gu_ix _ _ _ _ Gu) as IX.
  induction q; cbn [pcok holds phase] in *; auto; intro OK;
  repeat match goal with H : _ /\ _ |- _ => destruct H end; repeat apply conj; auto; try lia;
  try (rewrite (par_keep mx p g g'); auto; apply D'; cbn; auto; fail);
  try (rewrite (pend_keep mx p g g'); auto; apply D'; cbn; auto; fail);
  try (rewrite (par_keep mx p g g'), (pend_keep mx p g g'); auto; apply D'; cbn; auto; fail);
  try (eapply gu_stale; eauto; fail);
  try (rewrite (en_keep mx p g g'); auto; apply D'; cbn; auto; fail);
  try (match goal with |- context [wt _ ?x + wt _ ?y] => pose proof (gu_wt _ _ _ _ Gu x); pose proof (gu_wt _ _ _ _ Gu y); lia end);
  try (eapply en_off; eauto; fail);
  try (erewrite par_dis; eauto; congruence);
  try (erewrite iv_keep; eauto; fail);
  try (eapply kids_keep; eauto; congruence).
  apply IHq; auto. intros a Ha. apply D', in_or_app. auto.
Qed.
