(** Invariants of the contraction protocol ([RegTree]), continued. *)
From Coq Require Import List Arith Lia Bool.
From Verif Require Import Base Batch RegTree RegTreeSpec RegTreeInv.
Import ListNotations.
Local Open Scope nat_scope.

Definition opn (g : G) (u v : nat) : bool :=
  negb (v =? u) && (par g v =? u) && (match iv g v with None => true | _ => false end).
Definition cnt (n : nat) (g : G) (u : nat) : nat := count n (opn g u).

Definition ip (p : pc) (u : nat) : nat := match p with RWr2 _ w => Nat.b2n (w =? u) | _ => 0 end.
Definition im (p : pc) (u : nat) : nat := match p with CUnr2 x _ => Nat.b2n (x =? u) | _ => 0 end.
Definition own (g : G) (pcs : nat -> pc) (u : nat) : pc := match lk g u with Some t => pcs t | None => Idle end.

Fixpoint tok (g : G) (p : pc) (u : nat) : Prop :=
  match p with
  | CRead y => y = u
  | CAcq1 x y | CAcq2 x y | CTest x y => y = u /\ par g u = x
  | CUnr x y => y = u
  | CUnr2 x y => y = u \/ x = u
  | Rel _ k => tok g k u
  | _ => False
  end.

Definition holder_ok (g : G) (pcs : nat -> pc) : Prop :=
  forall a t, lk g a = Some t <-> In a (holds (pcs t)).

Record inv (n mx : nat) (w0 : nat -> nat) (s : St) : Prop := {
  i_lk : holder_ok (fst s) (snd s);
  i_nd : forall t, NoDup (holds (snd s t));
  i_pc : forall t, pcok n mx (fst s) (snd s t);
  i_ph : forall t1 t2 x1 x2 y, phase (snd s t1) = Some (x1, y) -> phase (snd s t2) = Some (x2, y) -> t1 = t2;
  i_par : forall u, u < n -> par (fst s) u < n;
  i_pend : forall u, u < n ->
    pend (fst s) u + im (own (fst s) (snd s) u) u = cnt n (fst s) u + ip (own (fst s) (snd s) u) u;
  i_dis : dis (fst s);
  i_iv : forall u i, iv (fst s) u = Some i -> en (fst s) u = false;
  i_open : forall u, en (fst s) u = false -> iv (fst s) u = None -> exists t x, phase (snd s t) = Some (x, u);
  i_ivl : forall u a b, iv (fst s) u = Some (a, b) -> a < b <= ix (fst s) /\ kids_before n (fst s) u a;
  i_tok : forall u, u < n -> en (fst s) u = true -> par (fst s) u <> u -> pend (fst s) u = 0 ->
    exists t, tok (fst s) (snd s t) u;
  i_log : contr n mx w0 (log (fst s)) (en (fst s)) (wt (fst s));
  i_log2 : forall x y, In (x, y) (log (fst s)) <-> en (fst s) y = false /\ par (fst s) y = x;
  i_ver : forall v, ver (fst s) v = None <-> par (fst s) v = v;
  i_ver2 : forall v k, ver (fst s) v = Some k -> k <= cv (fst s) }.

Lemma inv0 n mx w0 : inv n mx w0 (g0 w0, fun _ => Idle).
Proof.
  split; cbn; auto; try discriminate; try tauto; try congruence.
  - split; cbn; [discriminate|tauto].
  - constructor.
  - intros u Hu. unfold cnt, count. cbn.
    induction (seq 0 n) as [|a l IH]; [reflexivity|]. cbn. unfold opn at 1; cbn.
    destruct (a =? u) eqn:E; cbn; auto.
  - constructor.
  - intros x y. split; [tauto|]. intros [H _]. discriminate.
Qed.

(** *** locks *)
Lemma pcok_phase_holds n mx g p : pcok n mx g p -> Forall (fun a => a < n) (holds p).
Proof.
  induction p; cbn; intro H; repeat match goal with H : _ /\ _ |- _ => destruct H end; auto.
  - repeat constructor. lia.
  - apply Forall_app. auto.
Qed.

Definition lk_step (t : nat) (g g' : G) (p p' : pc) : Prop :=
  NoDup (holds p') /\ (forall a, lk g' a = Some t <-> In a (holds p')) /\
  (forall a t', t' <> t -> (lk g' a = Some t' <-> lk g a = Some t')) /\
  (forall a, ~ In a (holds p) -> ~ In a (holds p') -> lk g' a = lk g a).

Section Lk.
Variables (t : nat) (g g' : G) (p p' : pc).
Hypothesis (L : forall a, lk g a = Some t <-> In a (holds p)) (ND : NoDup (holds p)).

Lemma lk_same : lk g' = lk g -> holds p' = holds p -> lk_step t g g' p p'.
Proof. intros E H. unfold lk_step. rewrite H, E. repeat split; auto; apply L. Qed.

Lemma lk_swap : lk g' = lk g -> (exists a b, holds p = [a; b] /\ holds p' = [b; a]) -> lk_step t g g' p p'.
Proof.
  intros E (a & b & H & H'). unfold lk_step. rewrite E, H' in *.
  repeat split; auto.
  - rewrite H in ND. apply NoDup_cons_iff in ND. destruct ND as (N1 & N2). repeat constructor; cbn in *; intuition.
  - intro X. apply L in X. rewrite H in X. cbn in *. tauto.
  - intro X. apply L. rewrite H. cbn in *. tauto.
Qed.

Lemma lk_acq a : lk g a = None -> lk g' = upd (lk g) a (Some t) ->
  (holds p' = a :: holds p \/ exists b, holds p = [b] /\ holds p' = [b; a]) -> lk_step t g g' p p'.
Proof.
  intros E F H. unfold lk_step. rewrite F.
  assert (N : ~ In a (holds p)) by (intro X; apply L in X; congruence).
  assert (M : forall b, In b (holds p') <-> b = a \/ In b (holds p)).
  { intro b. destruct H as [->|(c & -> & ->)]; cbn; split; intuition. }
  repeat split.
  - destruct H as [->|(c & H1 & ->)]; [constructor; auto|]. rewrite H1 in N. repeat constructor; cbn in *; intuition.
  - intro X. apply M. ucase; auto. right. now apply L.
  - intro X. apply M in X. ucase; auto. destruct X as [X|X]; [congruence|]. now apply L.
  - intro X. ucase; auto. congruence.
  - intro X. ucase; auto. congruence.
  - intros b Q R. ucase; auto. destruct R. apply M. auto.
Qed.

Lemma lk_rel a : lk g' = upd (lk g) a None -> holds p = a :: holds p' -> lk_step t g g' p p'.
Proof.
  intros F H. unfold lk_step. rewrite F. rewrite H in *. apply NoDup_cons_iff in ND. destruct ND as (N1 & N2).
  repeat split; auto.
  - intro X. ucase; [discriminate|]. apply L in X. destruct X; congruence.
  - intro X. ucase; [contradiction|]. apply L. now right.
  - intro X. ucase; [discriminate|]. auto.
  - intro X. ucase; auto. assert (lk g a = Some t) by (apply L; now left). congruence.
  - intros b Q R. ucase; auto. destruct Q. now left.
Qed.
End Lk.

Lemma exec_lk n mx t g p g' p' :
  pcok n mx g p -> (forall a, lk g a = Some t <-> In a (holds p)) -> NoDup (holds p) ->
  exec mx t g p = Some (g', p') -> lk_step t g g' p p'.
Proof.
  intros OK L ND X. destruct p; exec_cases X; cbn [pcok] in OK;
  try (apply lk_same; auto; reflexivity);
  try (apply lk_swap; auto; cbn; eauto; fail);
  try (eapply lk_acq; eauto; cbn; eauto; fail);
  try (eapply lk_rel; eauto; reflexivity).
  - (* CAcq2 *) eapply lk_acq; eauto; try reflexivity. cbn. destruct (Nat.le_gt_cases x y).
    + right. exists x. rewrite Nat.min_l, Nat.max_r by lia. auto.
    + left. rewrite Nat.max_l, Nat.min_r by lia. auto.
Qed.

(** *** counting *)
Lemma count_ext n f f' : (forall v, v < n -> f v = f' v) -> count n f = count n f'.
Proof. intro H. unfold count. f_equal. apply filter_ext_in. intros a Ha. apply in_seq in Ha. apply H. lia. Qed.

Lemma count_S n f : count (S n) f = count n f + Nat.b2n (f n).
Proof. unfold count. rewrite seq_S, filter_app, app_length. cbn. destruct (f n); reflexivity. Qed.

Lemma count_upd n f f' a : a < n -> (forall v, v <> a -> f v = f' v) ->
  count n f' + Nat.b2n (f a) = count n f + Nat.b2n (f' a).
Proof.
  intros La H. induction n as [|n IH]; [lia|]. rewrite !count_S.
  destruct (Nat.eq_dec n a) as [->|N].
  - rewrite (count_ext a f f'); [lia|]. intros v Hv. apply H. lia.
  - rewrite (H n N). assert (a < n) by lia. specialize (IH H0). lia.
Qed.

Lemma count_pos n f a : a < n -> f a = true -> 1 <= count n f.
Proof.
  intros L E. unfold count. assert (In a (filter f (seq 0 n))) by (apply filter_In; split; auto; apply in_seq; lia).
  destruct (filter f (seq 0 n)); [destruct H|cbn; lia].
Qed.

Lemma count_0 n f : count n f = 0 -> forall a, a < n -> f a = false.
Proof. intros E a L. destruct (f a) eqn:F; auto. pose proof (count_pos n f a L F). lia. Qed.

Lemma count_ex n f : count n f <> 0 -> exists a, a < n /\ f a = true.
Proof.
  unfold count. intro H. destruct (filter f (seq 0 n)) as [|a l] eqn:E; [cbn in H; lia|].
  assert (X : In a (filter f (seq 0 n))) by (rewrite E; now left). apply filter_In in X. destruct X as (X & F).
  apply in_seq in X. exists a. split; [lia|auto].
Qed.

Lemma pcok_lk n mx g a x p : pcok n mx g p -> pcok n mx (set_lk g a x) p.
Proof. induction p; cbn [pcok]; auto. intros (A & B & C); auto. Qed.

(** *** consequences of the invariant *)
Section Cons.
Variables (n mx : nat) (w0 : nat -> nat) (g : G) (pcs : nat -> pc).
Hypothesis I : inv n mx w0 (g, pcs).

Lemma own_holder u t : In u (holds (pcs t)) -> own g pcs u = pcs t.
Proof. intro H. apply (i_lk _ _ _ _ I) in H. cbn in H. unfold own. now rewrite H. Qed.

Lemma own_none u : (forall t, ~ In u (holds (pcs t))) -> own g pcs u = Idle.
Proof.
  intro H. unfold own. destruct (lk g u) as [t|] eqn:E; auto.
  apply (i_lk _ _ _ _ I) in E. cbn in E. destruct (H t E).
Qed.

Lemma own_is u : own g pcs u = Idle \/ exists t, own g pcs u = pcs t /\ In u (holds (pcs t)).
Proof.
  unfold own. destruct (lk g u) as [t|] eqn:E; auto. right. exists t. split; auto. now apply (i_lk _ _ _ _ I).
Qed.

Lemma opn_true u v : v <> u -> par g v = u -> iv g v = None -> opn g u v = true.
Proof. intros A B C. unfold opn. rewrite (proj2 (Nat.eqb_neq _ _) A), B, Nat.eqb_refl, C. reflexivity. Qed.

Lemma en_iv v : en g v = true -> iv g v = None.
Proof. intro E. destruct (iv g v) as [i|] eqn:F; auto. apply (i_iv _ _ _ _ I) in F. cbn in F. congruence. Qed.

(** a node with an unfinished child that is locked by a thread at a neutral point is enabled *)
Lemma busy_parent x y t : x < n -> y < n -> x <> y -> par g y = x -> iv g y = None -> In x (holds (pcs t)) ->
  (forall u, im (pcs t) u = 0) -> (forall u, ip (pcs t) u = 0) -> pend g x = cnt n g x /\ 1 <= pend g x /\ en g x = true.
Proof.
  intros Lx Ly N P V Hx M1 M2. pose proof (i_pend _ _ _ _ I x Lx) as Q. cbn in Q.
  rewrite (own_holder x t Hx), M1, M2 in Q.
  assert (1 <= cnt n g x) by (eapply count_pos; [exact Ly|]; apply opn_true; auto).
  repeat split; try lia. destruct (en g x) eqn:E; auto. destruct (i_dis _ _ _ _ I x E) as (_ & Z). cbn in Z. lia.
Qed.

Lemma kids_done y : y < n -> en g y = false -> forall v, v < n -> v <> y -> par g v = y -> exists i, iv g v = Some i.
Proof.
  intros Ly E v Lv N P. pose proof (i_pend _ _ _ _ I y Ly) as Q. cbn in Q.
  destruct (i_dis _ _ _ _ I y E) as (_ & Z). cbn in Z. rewrite Z in Q.
  assert (im (own g pcs y) y = 0).
  { destruct (own_is y) as [->|(t & -> & Ht)]; [reflexivity|]. pose proof (i_pc _ _ _ _ I t) as OK. cbn in OK.
    destruct (pcs t); cbn in *; auto. destruct OK as (? & ? & ? & ? & ? & ? & ?).
    destruct (x =? y) eqn:F; [eqb; congruence|reflexivity]. }
  assert (C : cnt n g y = 0) by lia. pose proof (count_0 _ _ C v Lv) as O. unfold opn in O.
  rewrite (proj2 (Nat.eqb_neq _ _) N), P, Nat.eqb_refl in O. cbn in O. destruct (iv g v); [eauto|discriminate].
Qed.

Lemma pcok_self t g' p' : exec mx t g (pcs t) = Some (g', p') -> pcok n mx g' p'.
Proof.
  intro X. pose proof (i_pc _ _ _ _ I t) as OK. pose proof (i_par _ _ _ _ I) as LP. pose proof (i_nd _ _ _ _ I t) as ND.
  pose proof (busy_parent) as BP. cbn in OK, LP, ND. specialize (fun x y => BP x y t).
  destruct (pcs t) eqn:Ep; exec_cases X; cbn [pcok] in *; eqb;
  cbn [set_lk set_par set_pend set_ver set_iv set_ix merge lk par pend en wt iv ix] in *;
  repeat match goal with H : _ /\ _ |- _ => destruct H end; repeat apply conj; auto; try lia;
  try (repeat constructor; auto; fail).
  - rewrite upd_same. lia.
  - match goal with S : stale _ _ _ _ |- _ => destruct S as [S|[S|S]]; [exact S|lia|congruence] end.
  - apply upd_same.
  - now apply en_iv.
  - apply (BP x y); auto. { now apply en_iv. } cbn; auto.
  - intros v Lv N P. destruct (kids_done y ltac:(assumption) ltac:(assumption) v Lv N P) as ((a & b) & Q). exists a, b. split; auto.
    destruct (i_ivl _ _ _ _ I v a b Q) as ((_ & L) & _). exact L.
  - now apply pcok_lk.
  - now inversion H.
  - now apply pcok_lk.
Qed.
End Cons.

(** *** preservation *)
Lemma phase_step mx t g p g' p' : exec mx t g p = Some (g', p') ->
  phase p' = phase p \/ (phase p' = None /\ exists x y s e, p = CDec x y s e) \/
  (exists x y, p = CTest x y /\ phase p' = Some (x, y) /\ en g y = true /\ g' = merge g x y).
Proof.
  intro X. destruct p; exec_cases X; eqb; cbn; auto.
  - right; right. exists x, y. auto.
  - right; left. eauto 10.
Qed.

Lemma exec_log mx t g p g' p' : exec mx t g p = Some (g', p') ->
  (log g' = log g /\ en g' = en g /\ wt g' = wt g) \/
  (exists x y, p = CTest x y /\ g' = merge g x y /\ en g y = true /\ pend g y = 0 /\ wt g x + wt g y <= mx).
Proof.
  intro X. destruct p; exec_cases X; eqb; cbn; auto. right. exists x, y. auto.
Qed.

Lemma exec_ver mx t g p g' p' : exec mx t g p = Some (g', p') ->
  cv g' = cv g /\
  ((ver g' = ver g /\ par g' = par g) \/
   (exists v w, p = RWr2 v w /\ ver g' = upd (ver g) v (Some (cv g)) /\ par g' = upd (par g) v w) \/
   (exists x y, p = CUnr2 x y /\ ver g' = upd (ver g) y None /\ par g' = upd (par g) y y)).
Proof.
  intro X. destruct p; exec_cases X; cbn; split; auto; right; eauto 10.
Qed.

Section Step.
Variables (n mx : nat) (w0 : nat -> nat) (g : G) (pcs : nat -> pc) (t : nat) (g' : G) (p' : pc).
Hypothesis I : inv n mx w0 (g, pcs).
Hypothesis X : exec mx t g (pcs t) = Some (g', p').

Let OK : pcok n mx g (pcs t) := i_pc _ _ _ _ I t.
Let Gu : guar mx (pcs t) g g' := exec_guar n mx t g _ g' p' OK (i_dis _ _ _ _ I) X.
Let LK : lk_step t g g' (pcs t) p' :=
  exec_lk n mx t g _ g' p' OK (fun a => i_lk _ _ _ _ I a t) (i_nd _ _ _ _ I t) X.
Let OK' : pcok n mx g' p' := pcok_self n mx w0 g pcs I t g' p' X.

Lemma st_lk : holder_ok g' (upd pcs t p').
Proof.
  intros a t'. destruct LK as (_ & A & B & _). destruct (upd_cases pcs t p' t') as [(-> & ->)|(N & ->)]; [apply A|].
  rewrite (B a t' N). apply (i_lk _ _ _ _ I).
Qed.

Lemma st_nd t' : NoDup (holds (upd pcs t p' t')).
Proof. destruct (upd_cases pcs t p' t') as [(-> & ->)|(N & ->)]; [apply LK|apply (i_nd _ _ _ _ I)]. Qed.

Lemma excl a t' : t' <> t -> In a (holds (pcs t)) -> ~ In a (holds (pcs t')).
Proof. intros N A B. apply (i_lk _ _ _ _ I) in A, B. cbn in A, B. congruence. Qed.

Lemma st_pc t' : pcok n mx g' (upd pcs t p' t').
Proof.
  destruct (upd_cases pcs t p' t') as [(-> & ->)|(N & ->)]; [exact OK'|].
  apply (pcok_frame n mx (pcs t) (pcs t') g g' Gu).
  - intros a Ha. now apply excl.
  - intros x x' y A B. apply N. exact (i_ph _ _ _ _ I t' t x x' y A B).
  - apply (i_pc _ _ _ _ I t').
Qed.

Lemma phase_dis t' x y : phase (pcs t') = Some (x, y) -> en g y = false /\ iv g y = None /\ par g y = x /\ x <> y /\ x < n /\ y < n.
Proof.
  pose proof (i_pc _ _ _ _ I t') as O. cbn in O. revert O. generalize (pcs t'). intro q.
  induction q; cbn [phase pcok]; intros O E; try discriminate; try (injection E as -> ->; tauto).
  apply IHq; tauto.
Qed.

Lemma st_ph t1 t2 x1 x2 y : phase (upd pcs t p' t1) = Some (x1, y) -> phase (upd pcs t p' t2) = Some (x2, y) -> t1 = t2.
Proof.
  assert (M : forall t' x x' y, phase p' = Some (x, y) -> phase (pcs t') = Some (x', y) -> t' = t).
  { intros t' a a' b Ha Hb. destruct (phase_step _ _ _ _ _ _ X) as [E|[(E & _)|(c & d & E & F & En & _)]].
    - rewrite Ha in E. symmetry in E. exact (i_ph _ _ _ _ I t' t a' a b Hb E).
    - congruence.
    - rewrite Ha in F. injection F as -> ->. destruct (phase_dis _ _ _ Hb) as (Z & _). congruence. }
  destruct (upd_cases pcs t p' t1) as [(-> & ->)|(N & ->)]; destruct (upd_cases pcs t p' t2) as [(-> & ->)|(N' & ->)]; intros A B; auto.
  - symmetry. eapply M; eauto.
  - eapply M; eauto.
  - exact (i_ph _ _ _ _ I t1 t2 x1 x2 y A B).
Qed.

Lemma st_par u : u < n -> par g' u < n.
Proof.
  intro L. destruct (exec_ver _ _ _ _ _ _ X) as (_ & [(_ & ->)|[(v & w & E & _ & ->)|(v & w & E & _ & ->)]]).
  - apply (i_par _ _ _ _ I u L).
  - ucase; [|apply (i_par _ _ _ _ I u L)]. pose proof OK as Q. rewrite E in Q. cbn in Q. tauto.
  - ucase; [exact L|apply (i_par _ _ _ _ I u L)].
Qed.

Lemma own_step f u : (forall v, f Idle v = 0) ->
  f (own g' (upd pcs t p') u) u = (if in_dec Nat.eq_dec u (holds p') then f p' u else if in_dec Nat.eq_dec u (holds (pcs t)) then 0 else f (own g pcs u) u)
  /\ (In u (holds (pcs t)) -> own g pcs u = pcs t).
Proof.
  intro F0. split; [|apply (own_holder n mx w0); auto].
  destruct LK as (_ & A & B & C). unfold own. destruct (in_dec Nat.eq_dec u (holds p')) as [H|H].
  - rewrite (proj2 (A u) H), upd_same. reflexivity.
  - destruct (in_dec Nat.eq_dec u (holds (pcs t))) as [K|K].
    + destruct (lk g' u) as [t'|] eqn:E; [|apply F0]. destruct (Nat.eq_dec t' t) as [->|N]; [apply A in E; contradiction|].
      apply (B u t' N) in E. apply (i_lk _ _ _ _ I) in K. cbn in K. congruence.
    + rewrite (C u K H). destruct (lk g u) as [t'|] eqn:E; auto. rewrite upd_other; auto.
      intros ->. apply K. now apply (i_lk _ _ _ _ I).
Qed.

Lemma st_pend_same : par g' = par g -> pend g' = pend g -> iv g' = iv g ->
  (forall u, ip (pcs t) u = 0) -> (forall u, im (pcs t) u = 0) -> (forall u, ip p' u = 0) -> (forall u, im p' u = 0) ->
  forall u, u < n -> pend g' u + im (own g' (upd pcs t p') u) u = cnt n g' u + ip (own g' (upd pcs t p') u) u.
Proof.
  intros E1 E2 E3 A B C D u L.
  destruct (own_step ip u) as (F1 & O); [reflexivity|]. destruct (own_step im u) as (F2 & _); [reflexivity|].
  rewrite F1, F2, E2, C, D. unfold cnt, opn. rewrite E1, E3. pose proof (i_pend _ _ _ _ I u L) as P. cbn in P. unfold cnt, opn in P.
  destruct (in_dec Nat.eq_dec u (holds p')) as [H|H]; destruct (in_dec Nat.eq_dec u (holds (pcs t))) as [K|K]; auto; try (rewrite (O K), A, B in P; exact P).
  assert (Z : own g pcs u = Idle); [|rewrite Z in P; exact P].
  destruct LK as (_ & A' & B' & C'). apply A' in H.
  destruct (own_is n mx w0 g pcs I u) as [Z|(t' & Z & K')]; auto.
  exfalso. apply (i_lk _ _ _ _ I) in K'. cbn in K'. destruct (Nat.eq_dec t' t) as [->|N].
  - apply (i_lk _ _ _ _ I) in K'. auto.
  - apply (B' u t' N) in K'. congruence.
Qed.

Lemma st_pend : forall u, u < n -> pend g' u + im (own g' (upd pcs t p') u) u = cnt n g' u + ip (own g' (upd pcs t p') u) u.
Proof.
  clearbody OK' LK Gu OK. pose proof OK as O. pose proof X as X1. pose proof (own_step ip) as OS1. pose proof (own_step im) as OS2.
  pose proof (fun a b c d => busy_parent n mx w0 g pcs I a b t c d) as BP. pose proof st_pend_same as SS.
  pose proof (i_nd _ _ _ _ I t) as ND.
  destruct (pcs t) eqn:Ep; exec_cases X1; eqb;
  try (apply SS; cbn; auto; fail);
  try (cbn [pcok] in O; destruct O as (_ & Q & _); match type of Q with rel_ok ?k => destruct k; try contradiction; apply SS; cbn; auto end; fail);
  clear SS; cbn [pcok] in O; intros u L; destruct (OS1 u (fun _ => eq_refl)) as (F1 & OW); destruct (OS2 u (fun _ => eq_refl)) as (F2 & _);
  rewrite F1, F2; clear F1 F2; pose proof (i_pend _ _ _ _ I u L) as P; cbn [fst snd] in P; cbn [holds app] in *.
  - (* RWr *) change (cnt n (set_pend g w (S (pend g w))) u) with (cnt n g u).
    cbn [set_pend pend]. cbn [ip im].
    destruct (in_dec Nat.eq_dec u [v; w]) as [K|K].
    + rewrite (OW K) in P. cbn [ip im] in P. destruct (w =? u) eqn:E; eqb; [subst u; rewrite upd_same|rewrite upd_other by auto]; cbn; lia.
    + rewrite upd_other; auto. intros ->. apply K. cbn; auto.
  - (* RWr2 *) destruct O as (Lv & Lw & Nvw & Pv & Pw).
    assert (Ev : iv g v = None). { apply (en_iv n mx w0 g pcs I). destruct (en g v) eqn:E; auto. destruct (i_dis _ _ _ _ I v E) as (Z & _). cbn in Z. congruence. }
    set (g1 := set_ver (set_par g v w) v (Some (cv g))).
    pose proof (count_upd n (opn g u) (opn g1 u) v Lv) as C.
    assert (C1 : opn g u v = false). { unfold opn. rewrite Pv. destruct (v =? u); reflexivity. }
    assert (C2 : opn g1 u v = (w =? u)). { unfold opn. cbn. rewrite upd_same, Ev. destruct (v =? u) eqn:E; eqb; cbn.
      - symmetry. apply Nat.eqb_neq. congruence.
      - now rewrite andb_true_r. }
    rewrite C1, C2 in C. fold (cnt n g u) in C. fold (cnt n g1 u) in C.
    assert (C3 : forall v0, v0 <> v -> opn g u v0 = opn g1 u v0). { intros z Hz. unfold opn. cbn. now rewrite upd_other. }
    specialize (C C3). change (pend g1 u) with (pend g u).
    change (ip (Rel [w; v] (CRead v)) u) with 0. change (im (Rel [w; v] (CRead v)) u) with 0.
    destruct (in_dec Nat.eq_dec u [w; v]) as [K|K].
    + rewrite OW in P by (cbn in *; tauto). cbn [ip im] in P. cbn [Nat.b2n] in C. lia.
    + destruct (in_dec Nat.eq_dec u [v; w]) as [K'|K']; [exfalso; cbn in *; tauto|].
      rewrite (proj2 (Nat.eqb_neq w u)) in C by (cbn in *; intuition). cbn in C. lia.
  - (* CUnr *) destruct O as (Lx & Ly & Nxy & Py & Ey & Ex & W). specialize (BP x y).
    destruct BP as (B1 & B2 & _); auto. { apply (en_iv n mx w0 g pcs I); auto. } { now left. }
    change (cnt n (set_pend g x (pend g x - 1)) u) with (cnt n g u). cbn [set_pend pend]. cbn [ip im].
    destruct (in_dec Nat.eq_dec u [x; y]) as [K|K].
    + rewrite (OW K) in P. cbn [ip im] in P. destruct (x =? u) eqn:E; eqb; [subst u; rewrite upd_same|rewrite upd_other by auto]; cbn; lia.
    + rewrite upd_other; auto. intros ->. apply K. cbn; auto.
  - (* CUnr2 *) destruct O as (Lx & Ly & Nxy & Py & Ey & Ex & W).
    pose proof (en_iv n mx w0 g pcs I y Ey) as Iy.
    set (g1 := set_ver (set_par g y y) y None).
    pose proof (count_upd n (opn g u) (opn g1 u) y Ly) as C.
    assert (C2 : opn g1 u y = false). { unfold opn. cbn. rewrite upd_same. destruct (y =? u); reflexivity. }
    assert (C1 : opn g u y = (x =? u)). { unfold opn. rewrite Py, Iy. destruct (y =? u) eqn:E; eqb; cbn.
      - symmetry. apply Nat.eqb_neq. congruence.
      - now rewrite andb_true_r. }
    rewrite C1, C2 in C. fold (cnt n g u) in C. fold (cnt n g1 u) in C.
    assert (C3 : forall v0, v0 <> y -> opn g u v0 = opn g1 u v0). { intros z Hz. unfold opn. cbn. now rewrite upd_other. }
    specialize (C C3). change (pend g1 u) with (pend g u).
    change (ip (Rel [x; y] (CRead x)) u) with 0. change (im (Rel [x; y] (CRead x)) u) with 0.
    destruct (in_dec Nat.eq_dec u [x; y]) as [K|K].
    + rewrite OW in P by auto. cbn [ip im] in P. cbn [Nat.b2n] in C. lia.
    + rewrite (proj2 (Nat.eqb_neq x u)) in C by (cbn in *; intuition). cbn in C. lia.
  - (* CDec *) destruct O as (Lx & Ly & Nxy & Py & Ey & Iy & W & K0). specialize (BP x y).
    destruct BP as (B1 & B2 & _); auto. { now left. }
    set (g1 := set_iv (set_pend g x (pend g x - 1)) y (Some (s, e))).
    pose proof (count_upd n (opn g u) (opn g1 u) y Ly) as C.
    assert (C2 : opn g1 u y = false). { unfold opn. cbn. rewrite upd_same. now rewrite andb_false_r. }
    assert (C1 : opn g u y = (x =? u)). { unfold opn. rewrite Py, Iy. destruct (y =? u) eqn:E; eqb; cbn.
      - symmetry. apply Nat.eqb_neq. congruence.
      - now rewrite andb_true_r. }
    rewrite C1, C2 in C. fold (cnt n g u) in C. fold (cnt n g1 u) in C.
    assert (C3 : forall v0, v0 <> y -> opn g u v0 = opn g1 u v0). { intros z Hz. unfold opn. cbn. now rewrite upd_other. }
    specialize (C C3). change (pend g1 u) with (upd (pend g) x (pend g x - 1) u).
    change (ip (Rel [x] (CRead x)) u) with 0. change (im (Rel [x] (CRead x)) u) with 0.
    destruct (in_dec Nat.eq_dec u [x]) as [K|K].
    + rewrite OW in P by auto. cbn [ip im] in P. destruct K as [<-|[]]. rewrite upd_same, Nat.eqb_refl in *. cbn [Nat.b2n] in C. lia.
    + rewrite (proj2 (Nat.eqb_neq x u)) in C by (cbn in *; intuition). rewrite upd_other by (cbn in *; intuition). cbn in C. lia.
Qed.

Lemma test_busy x y : pcs t = CTest x y -> en g y = true -> wt g x + wt g y <= mx ->
  x < n /\ y < n /\ x <> y /\ par g y = x /\ pend g x <> 0 /\ en g x = true.
Proof.
  intros E En W. pose proof OK as O. rewrite E in O. cbn [pcok] in O. destruct O as (Lx & Ly & N & S).
  assert (P : par g y = x) by (destruct S as [S|[S|S]]; [exact S|lia|congruence]).
  destruct (busy_parent n mx w0 g pcs I x y t) as (_ & B & C); auto; try (rewrite E; cbn; auto; fail).
  { apply (en_iv n mx w0 g pcs I); auto. }
  repeat split; auto. lia.
Qed.

Lemma st_dis : dis g'.
Proof.
  intros u E. destruct (bool_dec (en g' u) (en g u)) as [Q|Q].
  - rewrite Q in E. destruct (i_dis _ _ _ _ I u E) as (A & B). cbn in A, B. split.
    + rewrite (par_dis _ _ _ _ u Gu); auto.
    + destruct (Nat.eq_dec (pend g' u) (pend g u)) as [R|R]; [congruence|].
      pose proof OK as O. pose proof X as X1. clearbody OK' LK Gu OK.
      destruct (pcs t) eqn:Ep; exec_cases X1; cbn in R; try congruence; cbn [set_pend set_iv pend] in *; cbn [pcok] in O.
      * ucase; [|congruence]. destruct O as (? & ? & ? & ? & [?|?]); congruence.
      * ucase; [|congruence]. lia.
      * ucase; [|congruence]. lia.
  - destruct (exec_log _ _ _ _ _ _ X) as [(_ & A & _)|(x & y & Ep & -> & Ey & Py & W)]; [congruence|].
    cbn in Q, E. ucase; [|congruence]. destruct (test_busy x y Ep Ey W) as (_ & _ & N & P & _). cbn. split; congruence.
Qed.

Lemma st_iv u i : iv g' u = Some i -> en g' u = false.
Proof.
  intro E. destruct (iv g u) as [j|] eqn:F.
  - eapply en_off; [exact Gu|]. exact (i_iv _ _ _ _ I u j F).
  - destruct (gu_iv0 _ _ _ _ Gu u) as (x & Ph); [congruence|].
    eapply en_off; [exact Gu|]. eapply phase_dis. exact Ph.
Qed.

Lemma st_open u : en g' u = false -> iv g' u = None -> exists t' x, phase (upd pcs t p' t') = Some (x, u).
Proof.
  intros E V. destruct (en g u) eqn:Eu.
  - destruct (exec_log _ _ _ _ _ _ X) as [(_ & A & _)|(x & y & Ep & E' & Ey & Py & W)]; [congruence|].
    subst g'. cbn in E. ucase; [|congruence].
    destruct (phase_step _ _ _ _ _ _ X) as [F|[(F & (a & b & c & d & K))|(a & b & K & F & _)]].
    + exfalso. pose proof X as X1. rewrite Ep in X1. unfold exec in X1. rewrite Ey, Py in X1. cbn in X1. rewrite (proj2 (Nat.leb_le _ _) W) in X1.
      injection X1 as <-. rewrite Ep in F. cbn in F. discriminate.
    + congruence.
    + exists t, a. rewrite upd_same. congruence.
  - assert (V0 : iv g u = None). { destruct (iv g u) eqn:F; auto. rewrite (gu_iv _ _ _ _ Gu _ _ F) in V. discriminate. }
    destruct (i_open _ _ _ _ I u Eu V0) as (t' & x & Ph). cbn in Ph.
    destruct (Nat.eq_dec t' t) as [->|N]; [|exists t', x; now rewrite upd_other].
    exists t. rewrite upd_same. destruct (phase_step _ _ _ _ _ _ X) as [F|[(F & (a & b & c & d & K))|(a & b & K & F & _)]].
    + rewrite F. eauto.
    + exfalso. pose proof X as X1. rewrite K in X1, Ph. cbn in X1, Ph. injection Ph as -> ->. injection X1 as <- <-.
      cbn in V. rewrite upd_same in V. discriminate.
    + rewrite K in Ph. discriminate.
Qed.

Lemma st_ivl u a b : iv g' u = Some (a, b) -> a < b <= ix g' /\ kids_before n g' u a.
Proof.
  intro E. destruct (iv g u) as [j|] eqn:F.
  - rewrite (gu_iv _ _ _ _ Gu _ _ F) in E. injection E as ->.
    destruct (i_ivl _ _ _ _ I u a b F) as (A & B). cbn in A, B. pose proof (gu_ix _ _ _ _ Gu). split; [lia|].
    pose proof (i_iv _ _ _ _ I u _ F) as Eu. destruct (i_dis _ _ _ _ I u Eu) as (Q & _).
    eapply kids_keep; eauto.
  - destruct (gu_iv0 _ _ _ _ Gu u) as (x & Ph); [congruence|].
    pose proof OK as O. pose proof X as X1. pose proof (phase_dis t x u Ph) as (Eu & Iu & Pu & Nxu & _).
    pose proof Gu as Gu1. clearbody OK' LK Gu OK.
    destruct (pcs t) eqn:Ep; exec_cases X1; cbn in E; try congruence.
    ucase; [|congruence]. injection E as <- <-. cbn [pcok] in O. destruct O as (? & ? & ? & ? & ? & ? & ? & K).
    cbn [set_iv set_pend ix]. split; [lia|]. eapply kids_keep; eauto. congruence.
Qed.

Lemma tok_other u k h h' : par h' u = par h u -> tok h k u -> tok h' k u.
Proof.
  intro E. induction k; cbn; auto; now rewrite E.
Qed.

Lemma st_tok u : u < n -> en g' u = true -> par g' u <> u -> pend g' u = 0 -> exists t', tok g' (upd pcs t p' t') u.
Proof.
  intros L E P Z.
  assert (Eu : en g u = true). { destruct (en g u) eqn:F; auto. rewrite (en_off _ _ _ _ u Gu F) in E. discriminate. }
  assert (Main : tok g' p' u \/ (par g' u = par g u /\ pend g u = 0 /\ (tok g (pcs t) u -> tok g' p' u))).
  { pose proof OK as O. pose proof X as X1. clearbody OK' LK Gu OK.
    destruct (pcs t) eqn:Ep; exec_cases X1; cbn [pcok] in O; eqb;
    cbn [set_lk set_par set_pend set_ver set_iv set_ix merge lk par pend en wt iv ix] in *; auto;
    try (right; repeat split; auto; cbn [tok]; auto; tauto).
    - (* RWr *) ucase; [lia|]. right; auto.
    - (* RWr2 *) ucase; [left; reflexivity|]. right; repeat split; auto. intros [].
    - (* CRead *) right. repeat split; auto. cbn. intros ->. auto.
    - (* CTest 1 *) ucase; [discriminate|]. right. repeat split; auto. cbn. intros (-> & _). congruence.
    - (* CTest 3 *) right. repeat split; auto. cbn [tok]. intros (-> & Q).
      rewrite E, Z in *. cbn in Eb, Eb0. rewrite Q, Nat.eqb_refl in Eb0. rewrite Eb in Eb0. discriminate.
    - (* CUnr *) cbn [tok]. ucase; auto.
    - (* CUnr2 *) cbn [tok]. ucase; [congruence|]. right. repeat split; auto. intros [-> | ->]; congruence.
    - (* CDec *) cbn [tok]. ucase; auto. right. tauto.
    - right. repeat split; auto. intro T. now apply (tok_other u p g).
    - right. repeat split; auto. intro T. cbn [tok]. now apply (tok_other u p g). }
  destruct Main as [M|(E1 & E2 & M)]; [exists t; now rewrite upd_same|].
  destruct (i_tok _ _ _ _ I u L Eu) as (t' & T); [cbn; congruence|exact E2|]. cbn in T.
  destruct (Nat.eq_dec t' t) as [->|N]; [exists t; rewrite upd_same; auto|].
  exists t'. rewrite upd_other by auto. now apply (tok_other u _ g).
Qed.

Lemma st_log : contr n mx w0 (log g') (en g') (wt g').
Proof.
  destruct (exec_log _ _ _ _ _ _ X) as [(-> & -> & ->)|(x & y & Ep & -> & Ey & Py & W)].
  - apply (i_log _ _ _ _ I).
  - destruct (test_busy x y Ep Ey W) as (A & B & C & D & E & F).
    cbn [merge log en wt]. change (@upd bool) with (@setf bool). change (@upd nat) with (@setf nat).
    apply contr_snoc; auto. apply (i_log _ _ _ _ I).
Qed.

Lemma st_log2 x y : In (x, y) (log g') <-> en g' y = false /\ par g' y = x.
Proof.
  destruct (exec_log _ _ _ _ _ _ X) as [(-> & A & _)|(a & b & Ep & E' & Ey & Py & W)].
  - rewrite (i_log2 _ _ _ _ I x y). cbn [fst]. rewrite A. split; intros (B & C); split; auto.
    + destruct (i_dis _ _ _ _ I y B) as (D & _). rewrite (par_dis _ _ _ _ y Gu); auto.
    + rewrite <- C. symmetry. destruct (i_dis _ _ _ _ I y B) as (D & _). apply (par_dis _ _ _ _ y Gu); auto.
  - destruct (test_busy a b Ep Ey W) as (_ & _ & Nab & P & _). rewrite E'. cbn [merge log en par].
    rewrite in_app_iff, (i_log2 _ _ _ _ I x y). cbn [fst In]. split.
    + intros [(B & C)|[Q|[]]].
      * ucase; auto.
      * injection Q as <- <-. rewrite upd_same. auto.
    + intros (B & C). ucase; [right; left; congruence|left; auto].
Qed.

Lemma st_ver v : ver g' v = None <-> par g' v = v.
Proof.
  pose proof (i_ver _ _ _ _ I v) as V. cbn in V.
  destruct (exec_ver _ _ _ _ _ _ X) as (_ & [(-> & ->)|[(a & w & E & -> & ->)|(a & w & E & -> & ->)]]); auto.
  - pose proof OK as Q. rewrite E in Q. cbn in Q. destruct (Nat.eq_dec v a) as [->|N].
    + rewrite !upd_same. split; [discriminate|]. intro Z. exfalso. subst. tauto.
    + rewrite !upd_other; auto.
  - destruct (Nat.eq_dec v w) as [->|N].
    + rewrite !upd_same. tauto.
    + rewrite !upd_other; auto.
Qed.

Lemma st_ver2 v k : ver g' v = Some k -> k <= cv g'.
Proof.
  pose proof (i_ver2 _ _ _ _ I v k) as V. cbn in V.
  destruct (exec_ver _ _ _ _ _ _ X) as (-> & [(-> & _)|[(a & w & E & -> & _)|(a & w & E & -> & _)]]); auto.
  - ucase; auto. intro Q. injection Q as <-. lia.
  - ucase; auto. discriminate.
Qed.

Lemma inv_exec : inv n mx w0 (g', upd pcs t p').
Proof.
  split; cbn [fst snd].
  - apply st_lk.
  - apply st_nd.
  - apply st_pc.
  - apply st_ph.
  - apply st_par.
  - apply st_pend.
  - apply st_dis.
  - apply st_iv.
  - apply st_open.
  - apply st_ivl.
  - apply st_tok.
  - apply st_log.
  - apply st_log2.
  - apply st_ver.
  - apply st_ver2.
Qed.
End Step.

Lemma inv_step n mx w0 s s' : inv n mx w0 s -> step n mx s s' -> inv n mx w0 s'.
Proof.
  intros I S. destruct S as [g pcs t u v E Lu Lv N|g pcs t g' p X|g pcs Q].
  - assert (H : forall P : pc -> Prop, (forall t', P (pcs t')) -> P (RAcq u v) -> forall t', P (upd pcs t (RAcq u v) t')).
    { intros P A B t'. destruct (upd_cases pcs t (RAcq u v) t') as [(_ & ->)|(_ & ->)]; auto. }
    assert (Ht : forall t', holds (upd pcs t (RAcq u v) t') = holds (pcs t')).
    { intro t'. destruct (upd_cases pcs t (RAcq u v) t') as [(-> & ->)|(_ & ->)]; auto. now rewrite E. }
    assert (Pt : forall t', phase (upd pcs t (RAcq u v) t') = phase (pcs t')).
    { intro t'. destruct (upd_cases pcs t (RAcq u v) t') as [(-> & ->)|(_ & ->)]; auto. now rewrite E. }
    assert (Ow : forall z, own g (upd pcs t (RAcq u v)) z = own g pcs z).
    { intro z. unfold own. destruct (lk g z) as [t'|] eqn:F; auto. rewrite upd_other; auto.
      intros ->. apply (i_lk _ _ _ _ I) in F. cbn in F. rewrite E in F. destruct F. }
    destruct I as [A1 A2 A3 A4 A5 A6 A7 A8 A9 A10 A11 A12 A13 A14 A15]. cbn [fst snd] in *. split; cbn [fst snd]; auto.
    + intros a t'. now rewrite Ht.
    + intro t'. now rewrite Ht.
    + apply (H (pcok n mx g)); cbn; auto.
    + intros t1 t2 x1 x2 y. rewrite !Pt. apply A4.
    + intros z L. rewrite Ow. auto.
    + intros z B C. destruct (A9 z B C) as (t' & x & D). exists t', x. now rewrite Pt.
    + intros z B C D F. destruct (A11 z B C D F) as (t' & T). exists t'.
      rewrite upd_other; auto. intros ->. rewrite E in T. destruct T.
  - eapply inv_exec; eauto.
  - destruct I as [A1 A2 A3 A4 A5 A6 A7 A8 A9 A10 A11 A12 A13 A14 A15]. cbn [fst snd] in *. split; cbn [fst snd]; auto.
    + intro t. rewrite Q. exact Logic.I.
    + intros u A B C D. destruct (A11 u A B C D) as (t & T). rewrite Q in T. destruct T.
    + intros v k B. specialize (A15 v k B). cbn in *. lia.
Qed.

Lemma run_inv n mx w0 s : run n mx w0 s -> inv n mx w0 s.
Proof. induction 1; [apply inv0|eapply inv_step; eauto]. Qed.
