(** The contraction tree stays a forest if final cycle checks do not overlap. *)
From Coq Require Import List Arith Lia Bool.
From Verif Require Import Base Batch BatchProps RegTree RegTreeSpec RegTreeInv RegTreeInv2.
Import ListNotations.
Local Open Scope nat_scope.

(** *** paths *)
Lemma up_S par k v : up par (S k) v = par (up par k v).
Proof. revert v. induction k as [|k IH]; intro v; [reflexivity|]. change (up par (S (S k)) v) with (up par (S k) (par v)). now rewrite IH. Qed.

Lemma up_fix par k v : par v = v -> up par k v = v.
Proof. intro E. induction k; cbn; [reflexivity|]. now rewrite E. Qed.

Lemma up_add par i j v : up par (i + j) v = up par j (up par i v).
Proof. revert v. induction i; intro v; cbn; auto. Qed.

Lemma cut_path par y k a b : up (upd par y y) k a = b ->
  exists k0, k0 <= k /\ up (upd par y y) k0 a = b /\ forall i, i <= k0 -> up (upd par y y) i a = up par i a.
Proof.
  revert a. induction k as [|k IH]; intros a E.
  - exists 0. split; [lia|]. split; auto. intros i L. assert (i = 0) by lia. now subst.
  - destruct (Nat.eq_dec a y) as [->|N].
    + exists 0. rewrite up_fix in E by apply upd_same. split; [lia|]. split; auto.
      intros i L. assert (i = 0) by lia. now subst.
    + cbn in E. rewrite upd_other in E by exact N. destruct (IH _ E) as (k0 & L & E0 & H).
      exists (S k0). split; [lia|]. split; [cbn; now rewrite upd_other|].
      intros [|i] Li; [reflexivity|]. cbn. rewrite upd_other by exact N. apply H. lia.
Qed.

Lemma forest_cut n par y : (forall v, v < n -> par v < n) -> forest n par -> forest n (upd par y y).
Proof.
  intros R F v L. destruct (F v L) as (k & E). revert v L E. induction k as [|k IH]; intros v L E.
  - exists 0. cbn in *. ucase; auto.
  - destruct (Nat.eq_dec v y) as [->|N]; [exists 0; cbn; apply upd_same|].
    destruct (IH (par v) (R v L) E) as (k' & E'). exists (S k'). cbn. now rewrite (upd_other par y y v N).
Qed.

Lemma up_avoid par v w k : (forall i, up par i w <> v) -> up (upd par v w) k w = up par k w.
Proof.
  intro A. induction k as [|k IH]; [reflexivity|]. rewrite !up_S, IH. now rewrite upd_other.
Qed.

Lemma forest_add n par v w : (forall u, u < n -> par u < n) -> w < n -> forest n par ->
  (forall i, up par i w <> v) -> forest n (upd par v w).
Proof.
  intros R Lw F A u L. destruct (F u L) as (k & E). revert u L E. induction k as [|k IH]; intros u L E.
  - destruct (Nat.eq_dec u v) as [->|N].
    + destruct (F w Lw) as (k & E'). exists (S k). cbn. rewrite (upd_same par v w), up_avoid by exact A. rewrite upd_other; auto.
    + exists 0. cbn in *. now rewrite upd_other.
  - destruct (Nat.eq_dec u v) as [->|N].
    + destruct (F w Lw) as (k' & E'). exists (S k'). cbn. rewrite (upd_same par v w), up_avoid by exact A. rewrite upd_other; auto.
    + destruct (IH (par u) (R u L) E) as (k' & E'). exists (S k'). cbn. now rewrite (upd_other par v w u N).
Qed.

(** *** runs in which the section from the final cycle check
    (contraction_tree.h:427) to the entry into the tree (373) is executed by
    one thread at a time *)
Definition committing (p : pc) : bool :=
  match p with RFin _ _ _ | RFinC _ _ _ | RWr _ _ | RWr2 _ _ => true | _ => false end.
Definition one_committing (s : St) : Prop :=
  forall t1 t2, committing (snd s t1) = true -> committing (snd s t2) = true -> t1 = t2.

Inductive srun (n mx : nat) (w0 : nat -> nat) : St -> Prop :=
| srun_0 : srun n mx w0 (g0 w0, fun _ => Idle)
| srun_S s s' : srun n mx w0 s -> step n mx s s' -> one_committing s' -> srun n mx w0 s'.

Lemma srun_run n mx w0 s : srun n mx w0 s -> run n mx w0 s.
Proof. induction 1; [constructor|econstructor; eauto]. Qed.

Lemma srun_one n mx w0 s : srun n mx w0 s -> one_committing s.
Proof. intro H. destruct H; [intros t1 t2; discriminate|assumption]. Qed.

Definition walk (par : nat -> nat) (p : pc) : Prop :=
  match p with
  | RFin v w x | RFinC v w x => forall k, up par k w = v -> exists j, j <= k /\ up par j w = x
  | RWr v w | RWr2 v w => forall k, up par k w <> v
  | _ => True
  end.

Lemma walk_cut par y p : walk par p -> walk (upd par y y) p.
Proof.
  assert (A : forall v w x, (forall k, up par k w = v -> exists j, j <= k /\ up par j w = x) ->
    forall k, up (upd par y y) k w = v -> exists j, j <= k /\ up (upd par y y) j w = x).
  { intros v w x H k E. destruct (cut_path _ _ _ _ _ E) as (k0 & L & E0 & Q).
    destruct (H k0) as (j & Lj & Ej); [now rewrite <- Q|]. exists j. split; [lia|]. now rewrite Q. }
  assert (B : forall v w, (forall k, up par k w <> v) -> forall k, up (upd par y y) k w <> v).
  { intros v w H k E. destruct (cut_path _ _ _ _ _ E) as (k0 & L & E0 & Q). apply (H k0). now rewrite <- Q. }
  destruct p; cbn [walk]; eauto.
Qed.

Record sinv (n : nat) (s : St) : Prop := {
  s_forest : forest n (par (fst s));
  s_walk : forall t, walk (par (fst s)) (snd s t);
  s_ver1 : forall v k, v < n -> en (fst s) v = true -> ver (fst s) v = Some k -> k = cv (fst s);
  s_ver2 : forall v k j, v < n -> ver (fst s) v = Some k -> ver (fst s) (par (fst s) v) = Some j -> k <= j }.

(** at quiescence a node that is registered and not contracted has a child that is
    registered and not contracted *)
Lemma idle_child n mx w0 g pcs y : inv n mx w0 (g, pcs) -> (forall t, pcs t = Idle) ->
  y < n -> en g y = true -> par g y <> y -> exists v, v < n /\ v <> y /\ par g v = y /\ en g v = true.
Proof.
  intros I Q L E P.
  assert (Z : pend g y <> 0).
  { intro Z. destruct (i_tok _ _ _ _ I y L E P Z) as (t & T). cbn in T. rewrite Q in T. destruct T. }
  pose proof (i_pend _ _ _ _ I y L) as C. cbn in C.
  assert (O : own g pcs y = Idle) by (unfold own; destruct (lk g y); auto).
  rewrite O in C. cbn in C. destruct (count_ex n (opn g y)) as (v & Lv & Ov); [unfold cnt in C; lia|].
  unfold opn in Ov. apply andb_true_iff in Ov. destruct Ov as (Ov & V). eqb. exists v. repeat split; auto.
  destruct (en g v) eqn:Ev; auto. destruct (iv g v) eqn:F; [discriminate|].
  destruct (i_open _ _ _ _ I v Ev F) as (t & x & Ph). cbn in Ph. rewrite Q in Ph. discriminate.
Qed.

Lemma forest_depth n par : (forall v, v < n -> par v < n) -> forest n par ->
  exists d : nat -> nat, forall v, v < n -> par v <> v -> d (par v) < d v.
Proof.
  intros R F.
  assert (B : exists K, forall v, v < n -> exists k, k <= K /\ par (up par k v) = up par k v).
  { assert (Bm : forall m, m <= n -> exists K, forall v, v < m -> exists k, k <= K /\ par (up par k v) = up par k v).
    { induction m as [|m IH]; intro Lm; [exists 0; lia|]. destruct IH as (K & HK); [lia|].
      destruct (F m) as (k & E); [lia|]. exists (Nat.max K k). intros v Lv.
      destruct (Nat.eq_dec v m) as [->|N]; [exists k; split; [lia|auto]|].
      destruct (HK v) as (k' & L' & E'); [lia|]. exists k'. split; [lia|auto]. }
    apply (Bm n). lia. }
  destruct B as (K & HK).
  set (dp := fix dp (K v : nat) : nat := match K with O => 0 | S j => if par v =? v then 0 else S (dp j (par v)) end).
  assert (M : forall k j v, par (up par k v) = up par k v -> k <= j -> dp j v = dp k v).
  { induction k as [|k IH]; intros j v E L.
    - cbn in E. destruct j; [reflexivity|]. cbn. now rewrite E, Nat.eqb_refl.
    - destruct j as [|j]; [lia|]. cbn [dp]. destruct (par v =? v); [reflexivity|]. f_equal. apply IH; [exact E|lia]. }
  exists (dp K). intros v L N. destruct (HK v L) as (k & Lk & E).
  destruct k as [|k]; [cbn in E; congruence|]. cbn [up] in E.
  rewrite (M k K (par v) E) by lia. rewrite (M (S k) K v E Lk). cbn [dp].
  rewrite (proj2 (Nat.eqb_neq _ _) N). lia.
Qed.

(** no infinite descent in a forest *)
Lemma forest_no_pending n mx w0 g pcs : inv n mx w0 (g, pcs) -> (forall t, pcs t = Idle) -> forest n (par g) ->
  forall y, y < n -> en g y = true -> par g y = y.
Proof.
  intros I Q F y L E. destruct (Nat.eq_dec (par g y) y) as [|N]; auto. exfalso.
  destruct (forest_depth n (par g) (i_par _ _ _ _ I) F) as (d & D).
  assert (H : forall k, exists v, v < n /\ en g v = true /\ par g v <> v /\ k <= d v).
  { induction k as [|k (v & Lv & Ev & Nv & Kv)]; [exists y; repeat split; auto; lia|].
    destruct (idle_child n mx w0 g pcs v I Q Lv Ev Nv) as (c & Lc & Nc & Pc & Ec).
    exists c. repeat split; auto; [congruence|]. specialize (D c Lc). rewrite Pc in D. assert (d v < d c) by (apply D; congruence). lia. }
  assert (B : exists K, forall v, v < n -> d v < K).
  { clear -d. induction n as [|m (K & HK)]; [exists 0; lia|]. exists (Nat.max K (S (d m))). intros v Lv.
    destruct (Nat.eq_dec v m) as [->|Nv]; [lia|]. specialize (HK v). lia. }
  destruct B as (K & HK). destruct (H K) as (v & Lv & _ & _ & Kv). specialize (HK v Lv). lia.
Qed.

Lemma sinv_step n mx w0 s s' : inv n mx w0 s -> sinv n s -> one_committing s -> step n mx s s' -> sinv n s'.
Proof.
  intros I SI O S. destruct SI as [F W V1 V2]. destruct S as [g pcs t u v E Lu Lv N|g pcs t g' p X|g pcs Q]; cbn [fst snd] in *.
  - split; cbn [fst snd]; auto. intro t'. destruct (upd_cases pcs t (RAcq u v) t') as [(-> & ->)|(_ & ->)]; cbn; auto.
  - pose proof (i_pc _ _ _ _ I t) as OK. cbn in OK.
    destruct (exec_ver _ _ _ _ _ _ X) as (Ecv & [(Ev & Ep)|[(v & w & E & Ev & Ep)|(x & y & E & Ev & Ep)]]).
    + split; cbn [fst snd]; rewrite ?Ev, ?Ep, ?Ecv; auto.
      * intro t'. destruct (upd_cases pcs t p t') as [(-> & ->)|(_ & ->)]; auto.
        specialize (W t). destruct (pcs t) eqn:Epc; exec_cases X; cbn [walk] in *; eqb; auto; cbn [pcok] in OK.
        -- (* RDbl -> RFin *) intros k _. exists 0. split; [lia|reflexivity].
        -- (* RFin -> RFinC *) intros k Ek. destruct (W k Ek) as (j & Lj & Ej).
           exists (S j). split; [|now rewrite up_S, Ej].
           destruct (Nat.eq_dec j k) as [->|]; [|lia]. exfalso. rewrite Ek in Ej. destruct OK as (? & ? & ? & ? & ? & ?). congruence.
        -- (* RFinC -> RWr *) intros k Ek. destruct (W k Ek) as (j & Lj & Ej).
           replace k with (j + (k - j)) in Ek by lia. rewrite up_add, Ej, up_fix in Ek by assumption. destruct OK as (? & ? & ? & ? & ? & ?). congruence.
        -- destruct OK as (_ & R & _). destruct p0; try contradiction; exact Logic.I.
        -- destruct OK as (_ & R & _). destruct p0; try contradiction; exact Logic.I.
      * intros v k L Een. apply V1; auto. destruct (en g v) eqn:Q; auto.
        rewrite (en_off mx (pcs t) g g' v) in Een; [discriminate| |exact Q].
        eapply exec_guar; eauto. apply (i_dis _ _ _ _ I).
    + rewrite E in OK. cbn [pcok] in OK. destruct OK as (Lv & Lw & Nvw & Pv & Zw).
      pose proof (W t) as Wt. rewrite E in Wt. cbn in Wt.
      assert (Een : forall z, en g' z = en g z).
      { rewrite E in X. cbn in X. injection X as <- <-. reflexivity. }
      assert (Enw : en g w = true).
      { destruct (en g w) eqn:Q; auto. destruct (i_dis _ _ _ _ I w Q) as (_ & Z). cbn in Z. congruence. }
      split; cbn [fst snd]; rewrite ?Ev, ?Ep, ?Ecv.
      * apply forest_add; auto. apply (i_par _ _ _ _ I).
      * intro t'. destruct (upd_cases pcs t p t') as [(-> & ->)|(Nt & ->)].
        -- rewrite E in X. cbn in X. injection X as <- <-. exact Logic.I.
        -- assert (C : committing (pcs t') = false).
           { destruct (committing (pcs t')) eqn:C; auto. destruct Nt. apply O; cbn; auto. now rewrite E. }
           destruct (pcs t'); try discriminate C; exact Logic.I.
      * intros z k L Ez Q. rewrite Een in Ez. destruct (Nat.eq_dec z v) as [->|N]; [rewrite upd_same in Q; congruence|].
        rewrite upd_other in Q by auto. eauto.
      * intros z k j L Q1 Q2. destruct (Nat.eq_dec z v) as [->|N].
        -- rewrite !upd_same in *. rewrite upd_other in Q2 by auto. injection Q1 as <-. rewrite (V1 w j Lw Enw Q2). lia.
        -- rewrite (upd_other (par g) v w z N) in Q2. rewrite upd_other in Q1 by auto.
           destruct (Nat.eq_dec (par g z) v) as [Pz|N'].
           ++ rewrite Pz, upd_same in Q2. injection Q2 as <-. exact (i_ver2 _ _ _ _ I z k Q1).
           ++ rewrite upd_other in Q2 by auto. eauto.
    + assert (Een : forall z, en g' z = en g z).
      { rewrite E in X. cbn in X. injection X as <- <-. reflexivity. }
      split; cbn [fst snd]; rewrite ?Ev, ?Ep, ?Ecv.
      * apply forest_cut; auto. apply (i_par _ _ _ _ I).
      * intro t'. destruct (upd_cases pcs t p t') as [(-> & ->)|(_ & ->)]; [|now apply walk_cut].
        rewrite E in X. cbn in X. injection X as <- <-. exact Logic.I.
      * intros z k L Ez Q. rewrite Een in Ez. destruct (Nat.eq_dec z y) as [->|N]; [rewrite upd_same in Q; congruence|].
        rewrite upd_other in Q by auto. eauto.
      * intros z k j L Q1 Q2. destruct (Nat.eq_dec z y) as [->|N]; [rewrite upd_same in Q1; congruence|].
        rewrite (upd_other (par g) y y z N) in Q2. rewrite upd_other in Q1 by auto.
        destruct (Nat.eq_dec (par g z) y) as [Pz|N']; [rewrite Pz, upd_same in Q2; discriminate|].
        rewrite upd_other in Q2 by auto. eauto.
  - split; cbn [fst snd]; auto. intros v k L E V.
    pose proof (forest_no_pending n mx w0 g pcs I Q F v L E) as P.
    apply (i_ver _ _ _ _ I) in P. cbn in P, V. congruence.
Qed.

Lemma srun_sinv n mx w0 s : srun n mx w0 s -> sinv n s.
Proof.
  induction 1 as [|s s' R IH S O].
  - split; cbn; auto; try discriminate. intros v L. exists 0. reflexivity.
  - eapply sinv_step; eauto; [apply run_inv, srun_run; exact R|eapply srun_one; eauto].
Qed.
