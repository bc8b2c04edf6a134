(** ClusterLive.v - the conflict resolution of the parallel clustering (Cluster.v) neither deadlocks nor livelocks. *)
From Verif Require Import Base Cluster.

Definition own (c : cpc) : option nat :=
  match c with
  | CIdle | CWeight _ _ | CCasU _ _ => None
  | CPartner u _ | CLoadV u _ | CRead u _ | CCasV u _ | CJoin u _ _ | CSetId u _ _ | CAdd u _ _ | CSetV u _ _ | CWalk u _ _ _ | CCheck u _ _ _ | CLoop u _ | CAfter u _ | CFin1 u | CFin2 u => Some u
  end.
Definition grab (c : cpc) : option nat :=
  match c with CJoin _ _ (KGrab v) | CSetId _ _ (KGrab v) | CAdd _ _ (KGrab v) | CSetV _ v false => Some v | _ => None end.

(** [tgt x]: the partner x has had since its thread took ownership of x. *)
Inductive reach (tgt : nat -> option nat) (u : nat) : nat -> Prop :=
| reach_refl : reach tgt u u
| reach_next x y : reach tgt u x -> tgt x = Some y -> reach tgt u y.

Definition linked (m : nat -> nat) (tgt : nat -> option nat) (u v : nat) : Prop := u <> v /\ m u = v /\ tgt u = Some v.
Definition tok (tgt : nat -> option nat) (s : nat -> mstate) (m : nat -> nat) (c : cpc) : Prop :=
  match c with
  | CIdle => True
  | CWeight u v | CCasU u v => u <> v
  | CPartner u v => u <> v /\ s u <> Unm /\ m u = u /\ tgt u = None
  | CLoadV u v | CCasV u v | CRead u v | CAfter u v => linked m tgt u v /\ s u <> Unm
  | CJoin u _ k | CSetId u _ k | CAdd u _ k => s u <> Unm /\ tgt u = Some (m u) /\ match k with KRes v => linked m tgt u v /\ s v <> Unm | KEnd => True | KGrab v => True end
  | CSetV u v r => s u <> Unm /\ tgt u = Some (m u) /\ (r = true -> linked m tgt u v /\ s v <> Unm)
  | CWalk u v cur _ | CCheck u v cur _ => linked m tgt u v /\ s u <> Unm /\ s v <> Unm /\ reach tgt u cur
  | CLoop u v => linked m tgt u v /\ s u <> Unm /\ s v <> Unm
  | CFin1 u => s u <> Unm /\ tgt u = Some (m u)
  | CFin2 u => s u <> Unm /\ tgt u <> None /\ m u = u
  end.
Record live_inv (n : nat) (tgt : nat -> option nat) (st : cluster_st) : Prop := {
  v_tok : forall i, tok tgt (ms st) (mp st) (cth st i);
  v_own : forall i j u, own (cth st i) = Some u -> own (cth st j) = Some u -> i = j;
  v_prog : forall x, ms st x = Prog -> exists i, own (cth st i) = Some x \/ grab (cth st i) = Some x;
  v_mp : forall x, mp st x <> x -> exists i, own (cth st i) = Some x;
  v_tgt : forall x, tgt x <> None -> ms st x <> Unm;
  v_idle : forall i, (n <= i)%nat -> cth st i = CIdle
}.

Lemma reach_mono tgt tgt' u x : (forall a b, tgt a = Some b -> tgt' a = Some b) -> reach tgt u x -> reach tgt' u x.
Proof. intros M R. induction R as [|x y R IH E]; [constructor|]. econstructor; [exact IH|apply M, E]. Qed.
Lemma tok_mono tgt tgt' s s' m m' c : tok tgt s m c -> (forall x, s x <> Unm -> s' x <> Unm) -> (forall u, own c = Some u -> m' u = m u /\ tgt' u = tgt u) ->
  (forall a b, tgt a = Some b -> tgt' a = Some b) -> tok tgt' s' m' c.
Proof.
  intros T S O M. destruct c as [|u v|u v|u v|u v|u v|u v|u r k|u r k|u r k|u v r|u v cur sm|u v cur sm|u v|u v|u|u]; cbn [tok own] in *; unfold linked in *; try exact T;
    try (destruct (O u eq_refl) as [O1 O2]; rewrite O1, O2).
  all: try (destruct k); decompose [and] T; repeat split; auto; try (eapply reach_mono; eassumption).
  all: match goal with Hi : _ -> _, E : _ = true |- _ => destruct (Hi E) as [(L3 & L4 & L5) L2]; auto end.
Qed.

Section Live.
Variables (nodes : list nat) (w : nat -> Z) (com : nat -> nat) (maxw : Z) (n : nat).
Notation step := (cl_step nodes w com maxw n).
Notation run := (cl_run nodes w com maxw n).

Lemma live_init : live_inv n (fun _ => None) (cl_init w).
Proof. constructor; cbn; intros; try exact I; try discriminate; try congruence; auto. Qed.

(** A step that touches only the program counter of thread i (and possibly cluster ids and weights). *)
Lemma live_pc tgt st st' i c : live_inv n tgt st -> (i < n)%nat -> ms st' = ms st -> mp st' = mp st -> cth st' = upd (cth st) i c ->
  tok tgt (ms st) (mp st) c -> (own c = own (cth st i)) -> (grab (cth st i) = None \/ grab c = grab (cth st i)) -> live_inv n tgt st'.
Proof.
  intros [A B C D F G] Hi E1 E2 E3 T O Gr. constructor; rewrite ?E1, ?E2, ?E3.
  - intros j. unfold upd. destruct (Nat.eqb_spec j i); [exact T|apply A].
  - intros j k u. unfold upd. destruct (Nat.eqb_spec j i) as [->|], (Nat.eqb_spec k i) as [->|]; rewrite ?O; try (intros; reflexivity); intros X Y; [apply (B _ _ _ X Y)..|apply (B _ _ _ X Y)].
  - intros x Hx. destruct (C x Hx) as [j Hj]. exists j. unfold upd. destruct (Nat.eqb_spec j i) as [->|]; [|exact Hj]. destruct Hj as [Hj|Hj]; [left; congruence|right].
    destruct Gr as [Gr|Gr]; congruence.
  - intros x Hx. destruct (D x Hx) as [j Hj]. exists j. unfold upd. destruct (Nat.eqb_spec j i) as [->|]; [congruence|exact Hj].
  - exact F.
  - intros j Hj. unfold upd. destruct (Nat.eqb_spec j i) as [->|]; [lia|apply G, Hj].
Qed.

Lemma live_step tgt st l st' : live_inv n tgt st -> step st l = Some st' -> exists tgt', live_inv n tgt' st'.
Proof.
  intros L E. pose proof L as [A B C D F G]. destruct l as [i u v|i ok]; cbn [cl_step] in E.
  - destruct (cth st i) eqn:Et; try discriminate. destruct (_ && _) eqn:Gd; [|discriminate]. injection E as <-. repeat (apply andb_true_iff in Gd; destruct Gd as [Gd ?]). apply Nat.ltb_lt in Gd.
    exists tgt. apply (live_pc tgt st _ i (CWeight u v) L Gd); try reflexivity; rewrite ?Et; cbn; auto. apply negb_true_iff, Nat.eqb_neq in H0. exact H0.
  - destruct (i <? n)%nat eqn:Hi; [|discriminate]. apply Nat.ltb_lt in Hi. unfold cl_adv in E. pose proof (A i) as Ti.
    destruct (cth st i) as [|u v|u v|u v|u v|u v|u v|u r k|u r k|u r k|u v r|u v cur sm|u v cur sm|u v|u v|u|u] eqn:Et; try discriminate; cbn [tok] in Ti.
    + injection E as <-. exists tgt. eapply (live_pc tgt st); try reflexivity; try eassumption; rewrite ?Et; destruct (_ <=? _); cbn; auto.
    + destruct (ms st u) eqn:Em; cbn [mstate_eqb] in E; injection E as <-.
      * (* CAS succeeds *) exists tgt.
        assert (Tn : tgt u = None) by (destruct (tgt u) eqn:Tu; [exfalso; apply (F u); [congruence|exact Em]|reflexivity]).
        assert (No : forall j, own (cth st j) <> Some u).
        { intros j Hj. specialize (A j). destruct (cth st j) as [| | |u0 v0|u0 v0|u0 v0|u0 v0|u0 r0 k0|u0 r0 k0|u0 r0 k0|u0 v0 r0|u0 v0 c0 s0|u0 v0 c0 s0|u0 v0|u0 v0|u0|u0]; cbn [own] in Hj; try discriminate; injection Hj as ->; cbn [tok] in A; decompose [and] A; congruence. }
        assert (Mu : mp st u = u) by (destruct (Nat.eq_dec (mp st u) u) as [Q|Q]; [exact Q|destruct (D u Q) as [j Hj]; destruct (No j Hj)]).
        assert (U : forall x, ms st x <> Unm -> upd (ms st) u Prog x <> Unm) by (intros x Hx; unfold upd; destruct (Nat.eqb x u); [discriminate|exact Hx]).
        constructor; cbn [ms mp cth goto set_ms].
        -- intros j. unfold upd at 2. destruct (Nat.eqb_spec j i) as [->|].
           ++ cbn [tok]. split; [exact Ti|]. split; [rewrite upd_same; discriminate|auto].
           ++ apply (tok_mono tgt tgt (ms st) _ (mp st) (mp st)); auto.
        -- intros j k x. unfold upd. destruct (Nat.eqb_spec j i) as [->|], (Nat.eqb_spec k i) as [->|]; cbn [own]; auto; intros X Y; try (injection X as <-); try (injection Y as <-); try (destruct (No _ Y)); try (destruct (No _ X)). apply (B _ _ _ X Y).
        -- intros x Hx. destruct (Nat.eq_dec x u) as [->|Nx]; [exists i; left; rewrite upd_same; reflexivity|]. rewrite upd_other in Hx by exact Nx. destruct (C x Hx) as [j Hj]. exists j. unfold upd. destruct (Nat.eqb_spec j i) as [->|]; [|exact Hj].
           rewrite Et in Hj. destruct Hj; discriminate.
        -- intros x Hx. destruct (D x Hx) as [j Hj]. exists j. unfold upd. destruct (Nat.eqb_spec j i) as [->|]; [rewrite Et in Hj; discriminate|exact Hj].
        -- intros x Hx. apply U, F, Hx.
        -- intros j Hj. unfold upd. destruct (Nat.eqb_spec j i) as [->|]; [lia|apply G, Hj].
      * exists tgt. eapply (live_pc tgt st); try reflexivity; try eassumption; rewrite ?Et; cbn; auto.
      * exists tgt. eapply (live_pc tgt st); try reflexivity; try eassumption; rewrite ?Et; cbn; auto.
    + (* partner store *) injection E as <-. destruct Ti as (Nuv & Su & Mu & Tu). exists (upd tgt u (Some v)).
      assert (M : forall a b, tgt a = Some b -> upd tgt u (Some v) a = Some b) by (intros a b Hab; unfold upd; destruct (Nat.eqb_spec a u); congruence).
      constructor; cbn [ms mp cth goto set_mp].
      * intros j. unfold upd at 3. destruct (Nat.eqb_spec j i) as [->|Nj].
        -- cbn [tok]. unfold linked. rewrite !upd_same. auto.
        -- apply (tok_mono tgt _ (ms st) (ms st) (mp st) _); auto. intros x Hx. assert (x <> u) by (intros ->; apply Nj; apply (B j i u Hx); rewrite Et; reflexivity). rewrite !upd_other by assumption. auto.
      * intros j k x. unfold upd. destruct (Nat.eqb_spec j i) as [->|], (Nat.eqb_spec k i) as [->|]; cbn [own]; auto; intros X Y; [apply (B i k x); [rewrite Et|]|apply (B j i x); [|rewrite Et]|apply (B j k x)]; assumption.
      * intros x Hx. destruct (C x Hx) as [j Hj]. exists j. unfold upd. destruct (Nat.eqb_spec j i) as [->|]; [|exact Hj]. rewrite Et in Hj. exact Hj.
      * intros x Hx. destruct (Nat.eq_dec x u) as [->|Nx]; [exists i; rewrite upd_same; reflexivity|]. rewrite upd_other in Hx by exact Nx. destruct (D x Hx) as [j Hj]. exists j. unfold upd. destruct (Nat.eqb_spec j i) as [->|]; [rewrite Et in Hj; exact Hj|exact Hj].
      * intros x. unfold upd. destruct (Nat.eqb_spec x u) as [->|]; [intros _; exact Su|apply F].
      * intros j Hj. unfold upd. destruct (Nat.eqb_spec j i) as [->|]; [lia|apply G, Hj].
    + injection E as <-. exists tgt. eapply (live_pc tgt st); try reflexivity; try eassumption; rewrite ?Et; destruct (ms st v) eqn:Ev; cbn; auto. destruct Ti as [T1 T2]. split; [exact T1|]. split; [exact T2|]. split; [congruence|constructor].
    + injection E as <-. exists tgt. eapply (live_pc tgt st); try reflexivity; try eassumption; rewrite ?Et; cbn; auto. destruct Ti as [(T1 & T3 & T4) T2]. split; [exact T2|]. split; [congruence|exact I].
    + destruct Ti as [T1 T2]. destruct (ms st v) eqn:Em; cbn [mstate_eqb] in E; injection E as <-.
      * exists tgt. assert (U : forall x, ms st x <> Unm -> upd (ms st) v Prog x <> Unm) by (intros x Hx; unfold upd; destruct (Nat.eqb x v); [discriminate|exact Hx]).
        constructor; cbn [ms mp cth goto set_ms].
        -- intros j. unfold upd at 2. destruct (Nat.eqb_spec j i) as [->|].
           ++ cbn [tok]. destruct T1 as (T1 & T3 & T4). split; [apply U, T2|]. split; [congruence|exact I].
           ++ apply (tok_mono tgt tgt (ms st) _ (mp st) (mp st)); auto.
        -- intros j k x. unfold upd. destruct (Nat.eqb_spec j i) as [->|], (Nat.eqb_spec k i) as [->|]; cbn [own]; auto; intros X Y; [apply (B i k x); [rewrite Et|]|apply (B j i x); [|rewrite Et]|apply (B j k x)]; assumption.
        -- intros x Hx. destruct (Nat.eq_dec x v) as [->|Nx]; [exists i; right; rewrite upd_same; reflexivity|]. rewrite upd_other in Hx by exact Nx. destruct (C x Hx) as [j Hj]. exists j. unfold upd. destruct (Nat.eqb_spec j i) as [->|]; [|exact Hj].
           rewrite Et in Hj. destruct Hj as [Hj|Hj]; [left; exact Hj|discriminate].
        -- intros x Hx. destruct (D x Hx) as [j Hj]. exists j. unfold upd. destruct (Nat.eqb_spec j i) as [->|]; [rewrite Et in Hj; exact Hj|exact Hj].
        -- intros x Hx. apply U, F, Hx.
        -- intros j Hj. unfold upd. destruct (Nat.eqb_spec j i) as [->|]; [lia|apply G, Hj].
      * exists tgt. eapply (live_pc tgt st); try reflexivity; try eassumption; rewrite ?Et; cbn; auto. split; [exact T1|]. split; [exact T2|]. split; [congruence|constructor].
      * exists tgt. eapply (live_pc tgt st); try reflexivity; try eassumption; rewrite ?Et; cbn; auto. split; [exact T1|]. split; [exact T2|]. split; [congruence|constructor].
    + injection E as <-. exists tgt. assert (TR : tok tgt (ms st) (mp st) (return_to u k)) by (unfold linked in *; destruct k; cbn; unfold linked; decompose [and] Ti; repeat split; auto; discriminate).
      eapply (live_pc tgt st); try reflexivity; try eassumption; rewrite ?Et; destruct (_ && _); cbn; auto; destruct k; cbn; auto.
    + injection E as <-. exists tgt. eapply (live_pc tgt st); try reflexivity; try eassumption; rewrite ?Et; cbn; auto; destruct k; cbn; auto.
    + injection E as <-. exists tgt. assert (TR : tok tgt (ms st) (mp st) (return_to u k)) by (unfold linked in *; destruct k; cbn; unfold linked; decompose [and] Ti; repeat split; auto; discriminate).
      eapply (live_pc tgt st); try reflexivity; try eassumption; rewrite ?Et; cbn; auto; destruct k; cbn; auto.
    + (* store matched *) injection E as <-. exists tgt. destruct Ti as (T1 & T2 & T3).
      assert (U : forall x, ms st x <> Unm -> upd (ms st) v Mat x <> Unm) by (intros x Hx; unfold upd; destruct (Nat.eqb x v); [discriminate|exact Hx]).
      constructor; cbn [ms mp cth goto set_ms].
      * intros j. unfold upd at 2. destruct (Nat.eqb_spec j i) as [->|].
        -- destruct r; cbn [tok]; [destruct (T3 eq_refl) as [L1 L2]|]; repeat split; auto; try (apply L1).
        -- apply (tok_mono tgt tgt (ms st) _ (mp st) (mp st)); auto.
      * intros j k x. unfold upd. destruct (Nat.eqb_spec j i) as [->|], (Nat.eqb_spec k i) as [->|]; cbn [own]; auto; intros X Y; [apply (B i k x); [rewrite Et|]|apply (B j i x); [|rewrite Et]|apply (B j k x)]; try assumption; destruct r; assumption.
      * intros x Hx. destruct (Nat.eq_dec x v) as [->|Nx]; [rewrite upd_same in Hx; discriminate|]. rewrite upd_other in Hx by exact Nx. destruct (C x Hx) as [j Hj]. exists j. unfold upd. destruct (Nat.eqb_spec j i) as [->|]; [|exact Hj].
        rewrite Et in Hj. destruct Hj as [Hj|Hj]; [left; destruct r; exact Hj|]. destruct r; cbn in Hj; [discriminate|congruence].
      * intros x Hx. destruct (D x Hx) as [j Hj]. exists j. unfold upd. destruct (Nat.eqb_spec j i) as [->|]; [rewrite Et in Hj; destruct r; exact Hj|exact Hj].
      * intros x Hx. apply U, F, Hx.
      * intros j Hj. unfold upd. destruct (Nat.eqb_spec j i) as [->|]; [lia|apply G, Hj].
    + injection E as <-. exists tgt. destruct Ti as (T1 & T2 & T3 & T4). destruct (negb (Nat.eqb (mp st cur) u) && negb (Nat.eqb (mp st cur) cur)) eqn:Q; eapply (live_pc tgt st); try reflexivity; try eassumption; rewrite ?Et; cbn; auto.
      split; [exact T1|]. split; [exact T2|]. split; [exact T3|]. econstructor; [exact T4|]. apply andb_true_iff in Q. destruct Q as [_ Q]. apply negb_true_iff, Nat.eqb_neq in Q.
      destruct (D cur Q) as [j Hj]. pose proof (A j) as Tj. assert (Ht : tgt cur = Some (mp st cur)).
      { destruct (cth st j) as [|u0 v0|u0 v0|u0 v0|u0 v0|u0 v0|u0 v0|u0 r0 k0|u0 r0 k0|u0 r0 k0|u0 v0 r0|u0 v0 c0 s0|u0 v0 c0 s0|u0 v0|u0 v0|u0|u0]; cbn [own] in Hj; try discriminate; injection Hj as ->; cbn [tok] in Tj; unfold linked in Tj; decompose [and] Tj; congruence. }
      exact Ht.
    + injection E as <-. exists tgt. destruct Ti as (T1 & T2 & T3 & T4). destruct (_ && _); eapply (live_pc tgt st); try reflexivity; try eassumption; rewrite ?Et; cbn; auto. split; [exact T2|]. split; [destruct T1 as (_ & T0 & T1); congruence|auto].
    + injection E as <-. exists tgt. destruct Ti as (T1 & T2 & T3). destruct (mstate_eqb _ _); eapply (live_pc tgt st); try reflexivity; try eassumption; rewrite ?Et; cbn; auto. split; [exact T1|]. split; [exact T2|]. split; [exact T3|constructor].
    + injection E as <-. exists tgt. destruct Ti as (T1 & T2). destruct (mstate_eqb _ _); eapply (live_pc tgt st); try reflexivity; try eassumption; rewrite ?Et; cbn; auto. split; [exact T2|]. destruct T1 as (_ & T0 & T1). congruence.
    + (* partner reset *) injection E as <-. exists tgt. destruct Ti as (T1 & T2). constructor; cbn [ms mp cth goto set_mp].
      * intros j. unfold upd at 2. destruct (Nat.eqb_spec j i) as [->|Nj].
        -- cbn [tok]. rewrite upd_same. split; [exact T1|]. split; [congruence|reflexivity].
        -- apply (tok_mono tgt _ (ms st) (ms st) (mp st) _); auto. intros x Hx. assert (x <> u) by (intros ->; apply Nj; apply (B j i u Hx); rewrite Et; reflexivity). rewrite !upd_other by assumption. auto.
      * intros j k x. unfold upd. destruct (Nat.eqb_spec j i) as [->|], (Nat.eqb_spec k i) as [->|]; cbn [own]; auto; intros X Y; [apply (B i k x); [rewrite Et|]|apply (B j i x); [|rewrite Et]|apply (B j k x)]; assumption.
      * intros x Hx. destruct (C x Hx) as [j Hj]. exists j. unfold upd. destruct (Nat.eqb_spec j i) as [->|]; [|exact Hj]. rewrite Et in Hj. exact Hj.
      * intros x Hx. destruct (Nat.eq_dec x u) as [->|Nx]; [rewrite upd_same in Hx; congruence|]. rewrite upd_other in Hx by exact Nx. destruct (D x Hx) as [j Hj]. exists j. unfold upd. destruct (Nat.eqb_spec j i) as [->|]; [rewrite Et in Hj; exact Hj|exact Hj].
      * exact F.
      * intros j Hj. unfold upd. destruct (Nat.eqb_spec j i) as [->|]; [lia|apply G, Hj].
    + injection E as <-. exists tgt. destruct Ti as (T1 & T2 & T3).
      assert (U : forall x, ms st x <> Unm -> upd (ms st) u Mat x <> Unm) by (intros x Hx; unfold upd; destruct (Nat.eqb x u); [discriminate|exact Hx]).
      constructor; cbn [ms mp cth goto set_ms].
      * intros j. unfold upd at 2. destruct (Nat.eqb_spec j i) as [->|]; [exact I|]. apply (tok_mono tgt tgt (ms st) _ (mp st) (mp st)); auto.
      * intros j k x. unfold upd. destruct (Nat.eqb_spec j i) as [->|], (Nat.eqb_spec k i) as [->|]; cbn [own]; auto; intros X Y; try discriminate; apply (B j k x); assumption.
      * intros x Hx. destruct (Nat.eq_dec x u) as [->|Nx]; [rewrite upd_same in Hx; discriminate|]. rewrite upd_other in Hx by exact Nx. destruct (C x Hx) as [j Hj]. exists j. unfold upd. destruct (Nat.eqb_spec j i) as [->|]; [|exact Hj].
        rewrite Et in Hj. destruct Hj as [Hj|Hj]; [cbn in Hj; congruence|discriminate].
      * intros x Hx. destruct (D x Hx) as [j Hj]. exists j. unfold upd. destruct (Nat.eqb_spec j i) as [->|]; [rewrite Et in Hj; cbn in Hj; congruence|exact Hj].
      * intros x Hx. apply U, F, Hx.
      * intros j Hj. unfold upd. destruct (Nat.eqb_spec j i) as [->|]; [lia|apply G, Hj].
Qed.

Lemma live_reachable l st : run (cl_init w) l = Some st -> exists tgt, live_inv n tgt st.
Proof.
  intros E. apply (cl_run_inv nodes w com maxw n (fun st => exists tgt, live_inv n tgt st)) with (l := l) (st := cl_init w); [|exists (fun _ => None); apply live_init|exact E].
  intros st0 a st1 [tgt L] E1. apply (live_step tgt st0 a st1 L E1).
Qed.

(** ** Ranking *)
Definition rank_to (k : kont) : nat := match k with KEnd => 2 | KGrab _ => 3 | KRes _ => 9 end.
Definition rank (s : nat -> mstate) (c : cpc) : nat :=
  match c with
  | CIdle => 0 | CFin2 _ => 1 | CFin1 _ => 2 | CSetV _ _ r => if r then 9 else 3
  | CAdd _ _ k => 1 + rank_to k | CSetId _ _ k => 2 + rank_to k | CJoin _ _ k => 3 + rank_to k
  | CRead _ _ => 6 | CAfter _ _ => 7 | CLoop _ v => if mstate_eqb (s v) Prog then 13 else 8
  | CWalk _ _ _ _ | CCheck _ _ _ _ => 13
  | CCasV _ _ => 14 | CLoadV _ _ => 15 | CPartner _ _ => 16 | CCasU _ _ => 17 | CWeight _ _ => 18
  end%nat.
Lemma rank_return s u k : rank s (return_to u k) = rank_to k. Proof. destruct k; reflexivity. Qed.
Lemma rank_le s c : (rank s c <= 18)%nat.
Proof. destruct c as [|u v|u v|u v|u v|u v|u v|u r k|u r k|u r k|u v r|u v cur sm|u v cur sm|u v|u v|u|u]; cbn; try (destruct k; cbn); try (destruct r); try (destruct (mstate_eqb _ _)); lia. Qed.
Lemma rank_0 s c : rank s c = 0%nat -> c = CIdle.
Proof. destruct c as [|u v|u v|u v|u v|u v|u v|u r k|u r k|u r k|u v r|u v cur sm|u v cur sm|u v|u v|u|u]; cbn; try (destruct k; cbn); try (destruct r); try (destruct (mstate_eqb _ _)); auto; lia. Qed.
Definition total (st : cluster_st) : nat := list_sum (map (fun i => rank (ms st) (cth st i)) (seq 0 n)).

(** A step of the conflict resolution loop that changes nothing but the program counter. *)
Definition spin (s : nat -> mstate) (m : nat -> nat) (c : cpc) : option cpc :=
  match c with
  | CWalk u v cur sm => Some (if negb (Nat.eqb (m cur) u) && negb (Nat.eqb (m cur) cur) then CWalk u v (m cur) (Nat.min sm (m cur)) else CCheck u v cur sm)
  | CCheck u v cur sm => if Nat.eqb (m cur) u && Nat.eqb u sm then None else if mstate_eqb (s v) Prog then Some (CLoop u v) else None
  | CLoop u v => if mstate_eqb (s v) Prog then Some (CWalk u v u u) else None
  | _ => None
  end.

Lemma sum_cons x l : list_sum (x :: l) = (x + list_sum l)%nat. Proof. reflexivity. Qed.
Lemma sum_le (f g : nat -> nat) l : (forall x, In x l -> f x <= g x)%nat -> (list_sum (map f l) <= list_sum (map g l))%nat.
Proof. induction l as [|x l IH]; intros L; [cbn; lia|]. cbn [map]. rewrite !sum_cons. pose proof (L x (or_introl eq_refl)). specialize (IH (fun y Hy => L y (or_intror Hy))). lia. Qed.
Lemma sum_lt (f g : nat -> nat) l i : (forall x, In x l -> f x <= g x)%nat -> In i l -> (f i < g i)%nat -> (list_sum (map f l) < list_sum (map g l))%nat.
Proof.
  induction l as [|x l IH]; intros L Hi Lt; [destruct Hi|]. pose proof (L x (or_introl eq_refl)). cbn [map]. rewrite !sum_cons. destruct Hi as [->|Hi].
  - pose proof (sum_le f g l (fun y Hy => L y (or_intror Hy))) as Y. lia.
  - specialize (IH (fun y Hy => L y (or_intror Hy)) Hi Lt). lia.
Qed.

(** The states never go back. *)
Lemma rank_mono tgt s s' m c : tok tgt s m c -> (forall x, s x <> Unm -> s' x = Prog -> s x = Prog) -> (rank s' c <= rank s c)%nat.
Proof.
  intros T M. destruct c; cbn [rank]; try lia. cbn [tok] in T. destruct T as (_ & _ & T). specialize (M v T).
  destruct (s' v) eqn:E1; cbn [mstate_eqb]; [| |]; try (destruct (mstate_eqb (s v) Prog); lia). rewrite (M eq_refl). cbn. lia.
Qed.

Lemma adv_rank tgt st i ok st' : live_inv n tgt st -> step st (CAdv i ok) = Some st' ->
  (total st' < total st)%nat \/ exists c, spin (ms st) (mp st) (cth st i) = Some c /\ st' = goto st i c.
Proof.
  intros L E. cbn [cl_step] in E. destruct (i <? n)%nat eqn:Hi; [|discriminate]. apply Nat.ltb_lt in Hi.
  assert (X : forall c s, cth st' = upd (cth st) i c -> ms st' = s -> (forall x, ms st x <> Unm -> s x = Prog -> ms st x = Prog) -> (rank s c < rank (ms st) (cth st i))%nat -> (total st' < total st)%nat).
  { intros c s Ec Es M Lt. unfold total. apply sum_lt with (i := i); [|apply in_seq; lia|rewrite Ec, upd_same, Es; exact Lt].
    intros j _. rewrite Ec, Es. unfold upd. destruct (Nat.eqb_spec j i) as [->|]; [lia|]. apply (rank_mono tgt (ms st) s (mp st)); [apply (v_tok n tgt st L)|exact M]. }
  assert (MP : forall v, ms st v = Unm -> forall x, ms st x <> Unm -> upd (ms st) v Prog x = Prog -> ms st x = Prog).
  { intros v Hv x Hx. unfold upd. destruct (Nat.eqb_spec x v); [congruence|auto]. }
  assert (MM : forall v x, ms st x <> Unm -> upd (ms st) v Mat x = Prog -> ms st x = Prog).
  { intros v x Hx. unfold upd. destruct (Nat.eqb_spec x v); [discriminate|auto]. }
  unfold cl_adv in E. pose proof (v_tok n tgt st L i) as Ti.
  destruct (cth st i) as [|u v|u v|u v|u v|u v|u v|u r k|u r k|u r k|u v r|u v cur sm|u v cur sm|u v|u v|u|u] eqn:Et; try discriminate; cbn [tok] in Ti.
  - injection E as <-. left. eapply X; try reflexivity; [auto|]. destruct (_ <=? _); cbn; lia.
  - left. destruct (ms st u) eqn:Em; cbn [mstate_eqb] in E; injection E as <-; (eapply X; try reflexivity; [|cbn; lia]); cbn [ms goto set_ms]; first [exact (MP _ Em)|auto].
  - injection E as <-. left. eapply X; try reflexivity; [auto|]. cbn. lia.
  - injection E as <-. left. eapply X; try reflexivity; [auto|]. destruct (ms st v); cbn; lia.
  - injection E as <-. left. eapply X; try reflexivity; [auto|]. cbn. lia.
  - left. destruct (ms st v) eqn:Em; cbn [mstate_eqb] in E; injection E as <-; (eapply X; try reflexivity; [|cbn; lia]); cbn [ms goto set_ms]; first [exact (MP _ Em)|auto].
  - injection E as <-. left. eapply X; try reflexivity; [auto|]. destruct (_ && _); [cbn; lia|]. rewrite rank_return. cbn. lia.
  - injection E as <-. left. eapply X; try reflexivity; [auto|]. cbn. lia.
  - injection E as <-. left. eapply X; try reflexivity; [auto|]. rewrite rank_return. cbn. lia.
  - injection E as <-. left. eapply X; try reflexivity; [cbn [ms goto set_ms]; apply MM|]. destruct r; cbn; [rewrite upd_same; cbn; lia|lia].
  - injection E as <-. right. eexists. split; reflexivity.
  - injection E as <-. cbn [spin]. destruct (Nat.eqb (mp st cur) u && Nat.eqb u sm).
    + left. eapply X; try reflexivity; [auto|]. cbn. lia.
    + destruct (mstate_eqb (ms st v) Prog) eqn:Ep; [right; eexists; split; reflexivity|]. left. eapply X; try reflexivity; [auto|]. cbn. rewrite Ep. lia.
  - injection E as <-. cbn [spin]. destruct (mstate_eqb (ms st v) Prog) eqn:Ep; [right; eexists; split; reflexivity|]. left. eapply X; try reflexivity; [auto|]. cbn. rewrite Ep. lia.
  - injection E as <-. left. eapply X; try reflexivity; [auto|]. destruct (mstate_eqb _ _); cbn; lia.
  - injection E as <-. left. eapply X; try reflexivity; [auto|]. cbn. lia.
  - injection E as <-. left. eapply X; try reflexivity; [cbn [ms goto set_ms]; apply MM|]. cbn. lia.
Qed.

(** Number of steps of thread i. *)
Definition steps_of (i : nat) (l : list clabel) : nat := length (filter (fun a => match a with CAdv j _ => Nat.eqb j i | CBegin _ _ _ => false end) l).
Definition no_begin (l : list clabel) : Prop := forall i u v, ~ In (CBegin i u v) l.
Fixpoint spins (s : nat -> mstate) (m : nat -> nat) (k : nat) (c : cpc) : option cpc :=
  match k with O => Some c | S k' => match spin s m c with Some c' => spins s m k' c' | None => None end end.

Lemma spin_rank s m c c' : spin s m c = Some c' -> rank s c' = rank s c.
Proof.
  destruct c as [|u v|u v|u v|u v|u v|u v|u r k|u r k|u r k|u v r|u v cur sm|u v cur sm|u v|u v|u|u]; cbn [spin]; try discriminate.
  - intros [= <-]. destruct (_ && _); reflexivity.
  - destruct (_ && _); [discriminate|]. destruct (mstate_eqb (s v) Prog) eqn:E; [|discriminate]. intros [= <-]. cbn. rewrite E. reflexivity.
  - destruct (mstate_eqb (s v) Prog) eqn:E; [|discriminate]. intros [= <-]. cbn. rewrite E. reflexivity.
Qed.
Lemma spin_total st i c : spin (ms st) (mp st) (cth st i) = Some c -> total (goto st i c) = total st.
Proof.
  intros E. unfold total. f_equal. apply map_ext. intros j. cbn [ms cth goto]. unfold upd. destruct (Nat.eqb_spec j i) as [->|]; [apply (spin_rank _ _ _ _ E)|reflexivity].
Qed.

(** Either the ranking decreases or all that happened is spinning. *)
Lemma run_rank : forall l tgt st st', live_inv n tgt st -> no_begin l -> run st l = Some st' ->
  (total st' < total st)%nat \/
  (ms st' = ms st /\ mp st' = mp st /\ total st' = total st /\ forall i, spins (ms st) (mp st) (steps_of i l) (cth st i) = Some (cth st' i)).
Proof.
  unfold cl_run. induction l as [|a l IH]; intros tgt st st' L NB E; cbn [fold_opt] in E; [injection E as <-; right; auto 6|].
  destruct (step st a) as [st1|] eqn:E1; [|discriminate]. destruct a as [i u v|i ok]; [exfalso; apply (NB i u v); left; reflexivity|].
  destruct (live_step tgt st _ st1 L E1) as [tgt1 L1]. assert (NB' : no_begin l) by (intros j u v Hj; apply (NB j u v); right; exact Hj).
  destruct (adv_rank tgt st i ok st1 L E1) as [Lt|(c & Sp & ->)].
  - left. destruct (IH tgt1 st1 st' L1 NB' E) as [H|(_ & _ & H & _)]; lia.
  - pose proof (spin_total st i c Sp) as Tt. destruct (IH tgt1 _ st' L1 NB' E) as [H|(A & B & T & S)]; [left; lia|]. right. cbn [ms mp goto cth] in *. split; [exact A|]. split; [exact B|]. split; [lia|].
    intros j. specialize (S j). unfold steps_of in *. cbn [filter]. destruct (Nat.eqb_spec i j) as [->|Ne]; cbn [length spins]; [rewrite Sp; rewrite upd_same in S; exact S|]. rewrite upd_other in S by congruence. exact S.
Qed.

(** ** Some waiting thread leaves the loop *)
Definition orb (m : nat -> nat) (k x : nat) : nat := Nat.iter k m x.
Lemma orb_S m k x : orb m (S k) x = m (orb m k x). Proof. reflexivity. Qed.
Lemma orb_shift m k x : orb m k (m x) = orb m (S k) x.
Proof. induction k as [|k IH]; [reflexivity|]. rewrite !orb_S, IH. reflexivity. Qed.
Lemma orb_add m a b x : orb m (a + b) x = orb m a (orb m b x).
Proof. induction a as [|a IH]; [reflexivity|]. cbn [Nat.add]. rewrite !orb_S, IH. reflexivity. Qed.
Lemma spins_app s m a : forall b c c1, spins s m a c = Some c1 -> spins s m (a + b) c = spins s m b c1.
Proof.
  induction a as [|a IH]; intros b c c1 E; cbn in *; [injection E as <-; reflexivity|]. destruct (spin s m c) as [c'|]; [|discriminate]. apply IH, E.
Qed.
Lemma spins_none s m a : forall b c, spins s m a c = None -> (a <= b)%nat -> spins s m b c = None.
Proof.
  induction a as [|a IH]; intros b c E Lb; [discriminate|]. destruct b as [|b]; [lia|]. cbn in *. destruct (spin s m c) as [c'|]; [|reflexivity]. apply IH; [exact E|lia].
Qed.
Lemma spins_then s m a c c1 : spins s m a c = Some c1 -> forall b, spins s m b c1 = None -> spins s m (a + b) c = None.
Proof. intros E b N. rewrite (spins_app s m a b c c1 E). exact N. Qed.

(** A walk whose orbit runs into a fixed point of [m] ends. *)
Lemma walk_ends s m u v : forall k cur sm, m (orb m k cur) = orb m k cur -> exists j c' sm', (j <= S k)%nat /\ spins s m j (CWalk u v cur sm) = Some (CCheck u v c' sm').
Proof.
  induction k as [|k IH]; intros cur sm F.
  - exists 1%nat, cur, sm. split; [lia|]. cbn in *. rewrite F, Nat.eqb_refl, andb_false_r. reflexivity.
  - destruct (negb (Nat.eqb (m cur) u) && negb (Nat.eqb (m cur) cur)) eqn:Q.
    + destruct (IH (m cur) (Nat.min sm (m cur))) as (j & c' & sm' & Lj & Ej); [rewrite orb_shift; exact F|]. exists (S j), c', sm'. split; [lia|]. cbn [spins spin]. rewrite Q. exact Ej.
    + exists 1%nat, cur, sm. split; [lia|]. cbn [spins spin]. rewrite Q. reflexivity.
Qed.
(** A walk on a cycle through u ends in front of u. *)
Lemma walk_cycle s m u v p : (0 < p)%nat -> orb m p u = u -> (forall k, m (orb m k u) <> orb m k u) -> (forall k, (u <= orb m k u)%nat) ->
  forall d j sm, (j + d = p - 1)%nat -> exists q c', (q <= S d)%nat /\ m c' = u /\ exists sm', spins s m q (CWalk u v (orb m j u) sm) = Some (CCheck u v c' sm') /\ (sm = u -> sm' = u).
Proof.
  intros Hp Hc Hf Hm. induction d as [|d IH]; intros j sm Hj.
  - exists 1%nat, (orb m j u). assert (E : m (orb m j u) = u) by (rewrite <- orb_S; replace (S j) with p by lia; exact Hc). split; [lia|]. split; [exact E|]. exists sm. cbn [spins spin]. rewrite E, Nat.eqb_refl. auto.
  - destruct (Nat.eqb_spec (m (orb m j u)) u) as [E|Ne].
    + exists 1%nat, (orb m j u). split; [lia|]. split; [exact E|]. exists sm. cbn [spins spin]. rewrite E, Nat.eqb_refl. auto.
    + destruct (IH (S j) (Nat.min sm (m (orb m j u)))) as (q & c' & Lq & Ec & sm' & Eq & Es); [lia|]. exists (S q), c'. split; [lia|]. split; [exact Ec|]. exists sm'. split.
      * cbn [spins spin]. apply Nat.eqb_neq in Ne. rewrite Ne. assert (F := Hf j). apply Nat.eqb_neq in F. rewrite F. exact Eq.
      * intros ->. apply Es. pose proof (Hm (S j)) as X. rewrite orb_S in X. lia.
Qed.

Lemma pigeon : forall (f : nat -> nat) b N, (forall k, (k < N)%nat -> (f k < b)%nat) -> (b < N)%nat -> exists i j, (i < j < N)%nat /\ f i = f j.
Proof.
  intros f b N L Hb. destruct (ListDec.NoDup_dec Nat.eq_dec (map f (seq 0 N))) as [ND|ND].
  - exfalso. assert (I : incl (map f (seq 0 N)) (seq 0 b)). { intros x Hx. apply in_map_iff in Hx. destruct Hx as (k & <- & Hk). apply in_seq in Hk. apply in_seq. specialize (L k ltac:(lia)). lia. }
    pose proof (NoDup_incl_length ND I) as X. rewrite map_length, !seq_length in X. lia.
  - clear - ND. revert ND. induction N as [|N IH]; intros ND; [exfalso; apply ND; constructor|].
    rewrite seq_S, map_app in ND. cbn [map Nat.add] in ND. destruct (in_dec Nat.eq_dec (f N) (map f (seq 0 N))) as [Hi|Hn].
    + apply in_map_iff in Hi. destruct Hi as (k & Ek & Hk). apply in_seq in Hk. exists k, N. split; [lia|exact Ek].
    + destruct IH as (i & j & Lij & E).
      * intros ND'. apply ND. apply (Permutation.Permutation_NoDup (l := f N :: map f (seq 0 N))); [apply Permutation.Permutation_cons_append|]. constructor; assumption.
      * exists i, j. split; [lia|exact E].
Qed.
Lemma min_of (f : nat -> nat) : forall p, (0 < p)%nat -> exists j, (j < p)%nat /\ forall k, (k < p)%nat -> (f j <= f k)%nat.
Proof.
  induction p as [|p IH]; [lia|]. intros _. destruct p as [|p]; [exists 0%nat; split; [lia|]; intros k Hk; replace k with 0%nat by lia; lia|].
  destruct (IH ltac:(lia)) as (j & Lj & M). destruct (Nat.le_gt_cases (f j) (f (S p))) as [C|C].
  - exists j. split; [lia|]. intros k Hk. destruct (Nat.eq_dec k (S p)) as [->|]; [exact C|apply M; lia].
  - exists (S p). split; [lia|]. intros k Hk. destruct (Nat.eq_dec k (S p)) as [->|]; [lia|]. specialize (M k ltac:(lia)). lia.
Qed.

Lemma some_leaves tgt st : live_inv n tgt st -> ~ cl_done n st -> (forall i, (i < n)%nat -> cth st i = CIdle \/ spins (ms st) (mp st) (2 * n + 5) (cth st i) <> None) -> False.
Proof.
  intros L ND W. pose proof L as [A B C D F G]. set (m := mp st) in *. set (s := ms st) in *.
  (* every active thread is in the loop *)
  assert (Wait : forall i u, own (cth st i) = Some u -> (i < n)%nat /\ spins s m (2 * n + 5) (cth st i) <> None /\ linked m tgt u (m u) /\ ((exists cur sm, (cth st i = CWalk u (m u) cur sm \/ cth st i = CCheck u (m u) cur sm) /\ reach tgt u cur) \/ cth st i = CLoop u (m u))).
  { intros i u Hi. assert (Li : (i < n)%nat). { destruct (Nat.le_gt_cases n i) as [Ge|]; [|assumption]. rewrite (G i Ge) in Hi. discriminate. }
    destruct (W i Li) as [Id|Sp]; [rewrite Id in Hi; discriminate|]. split; [exact Li|]. split; [exact Sp|]. assert (Sp1 : spin s m (cth st i) <> None). { intros N. apply Sp. apply (spins_none s m 1); [cbn; rewrite N; reflexivity|lia]. }
    specialize (A i). destruct (cth st i) as [|u0 v0|u0 v0|u0 v0|u0 v0|u0 v0|u0 v0|u0 r0 k0|u0 r0 k0|u0 r0 k0|u0 v0 r0|u0 v0 c0 s0|u0 v0 c0 s0|u0 v0|u0 v0|u0|u0]; cbn [spin] in Sp1; try congruence; cbn [own] in Hi; injection Hi as ->; cbn [tok] in A.
    - destruct A as ((T1 & T2 & T3) & T4 & T5 & T6). subst v0. split; [split; auto|]. left. exists c0, s0. auto.
    - destruct A as ((T1 & T2 & T3) & T4 & T5 & T6). subst v0. split; [split; auto|]. left. exists c0, s0. auto.
    - destruct A as ((T1 & T2 & T3) & T4 & T5). subst v0. split; [split; auto|]. right. reflexivity. }
  assert (Prg : forall x, s x = Prog -> m x <> x).
  { intros x Hx. destruct (C x Hx) as (i & [Hi|Hi]); [destruct (Wait i x Hi) as (_ & _ & (T1 & _ & _) & _); congruence|]. exfalso.
    destruct (Nat.le_gt_cases n i) as [Ge|Li]; [rewrite (G i Ge) in Hi; discriminate|]. destruct (W i Li) as [Id|Sp]; [rewrite Id in Hi; discriminate|]. apply Sp. apply (spins_none s m 1); [|lia].
    destruct (cth st i); try discriminate; reflexivity. }
  destruct (Wf_nat.dec_inh_nat_subset_has_unique_least_element (fun i => (i < n)%nat /\ cth st i <> CIdle)) as (i0 & ((Li0 & Ai0) & _) & _).
  { intros i. destruct (lt_dec i n) as [Li|]; [|right; tauto]. destruct (cth st i); [right; tauto|left; split; [exact Li|discriminate]..]. }
  { destruct (existsb (fun i => match cth st i with CIdle => false | _ => true end) (seq 0 n)) eqn:Ex.
    - apply existsb_exists in Ex. destruct Ex as (i & Hi & Ei). apply in_seq in Hi. exists i. split; [lia|]. intros Q. rewrite Q in Ei. discriminate.
    - exfalso. apply ND. intros i Hi. assert (X : (fun i => match cth st i with CIdle => false | _ => true end) i = false).
      { apply not_true_iff_false. intros Q. assert (existsb (fun i => match cth st i with CIdle => false | _ => true end) (seq 0 n) = true) by (apply existsb_exists; exists i; split; [apply in_seq; lia|exact Q]). congruence. }
      cbv beta in X. destruct (cth st i); [reflexivity|discriminate..]. }
  assert (S0 : exists y0, own (cth st i0) = Some y0).
  { destruct (W i0 Li0) as [Id|Sp]; [congruence|]. destruct (cth st i0) eqn:Q; cbn [own]; eauto; exfalso; try congruence; apply Sp; apply (spins_none s m 1); try reflexivity; lia. }
  destruct S0 as (y0 & Hy0).
  set (stays := fun y => forallb (fun k => negb (Nat.eqb (m (orb m k y)) (orb m k y))) (seq 0 (S n))).
  assert (Own : forall x, m x <> x -> exists i, (i < n)%nat /\ own (cth st i) = Some x) by (intros x Hx; destruct (D x Hx) as (i & Hi); exists i; split; [apply (Wait i x Hi)|exact Hi]).
  destruct (existsb (fun i => match own (cth st i) with Some y => stays y | None => false end) (seq 0 n)) eqn:Cy.
  - (* a cycle *)
    apply existsb_exists in Cy. destruct Cy as (iy & _ & Hy). destruct (own (cth st iy)) as [y|]; [|discriminate]. unfold stays in Hy. rewrite forallb_forall in Hy.
    assert (St : forall k, (k <= n)%nat -> m (orb m k y) <> orb m k y) by (intros k Hk; apply Nat.eqb_neq, negb_true_iff, Hy, in_seq; lia).
    assert (O : forall k, exists i, (k <= n)%nat -> (i < n)%nat /\ own (cth st i) = Some (orb m k y)).
    { intros k. destruct (le_dec k n) as [Lk|]; [destruct (Own _ (St k Lk)) as (i & Hi); exists i; auto|exists 0%nat; intros; lia]. }
    assert (Fc : exists f, forall k, (k <= n)%nat -> (f k < n)%nat /\ own (cth st (f k)) = Some (orb m k y)).
    { clear - O. assert (X : forall N, exists f, forall k, (k < N)%nat -> (k <= n)%nat -> (f k < n)%nat /\ own (cth st (f k)) = Some (orb m k y)).
      { induction N as [|N (f & IH)]; [exists (fun _ => 0%nat); intros; lia|]. destruct (O N) as (i & Hi). exists (upd f N i). intros k Hk Hn. unfold upd. destruct (Nat.eqb_spec k N) as [->|]; [apply Hi, Hn|apply IH; lia]. }
      destruct (X (S n)) as (f & Hf). exists f. intros k Hk. apply Hf; lia. }
    destruct Fc as (f & Hf). destruct (pigeon f n (S n)) as (a & b & Lab & Eab); [intros k Hk; apply Hf; lia|lia|].
    assert (Eq : orb m a y = orb m b y) by (destruct (Hf a ltac:(lia)) as [_ X1]; destruct (Hf b ltac:(lia)) as [_ X2]; rewrite Eab in X1; congruence).
    set (z := orb m a y) in *. set (p := (b - a)%nat). assert (Pp : (0 < p <= n)%nat) by (unfold p; lia).
    assert (Zc : orb m p z = z) by (unfold z at 1; rewrite <- orb_add; replace (p + a)%nat with b by (unfold p; lia); symmetry; exact Eq).
    destruct (min_of (fun j => orb m j z) p ltac:(lia)) as (j0 & Lj0 & Mn). set (u := orb m j0 z) in *.
    assert (Per : forall q x, orb m p x = x -> orb m (q * p) x = x). { intros q x Hx. induction q as [|q IHq]; [reflexivity|]. cbn [Nat.mul]. rewrite orb_add, IHq. exact Hx. }
    assert (Red : forall k, exists k', (k' < p)%nat /\ orb m k z = orb m k' z).
    { intros k. exists (k mod p)%nat. split; [apply Nat.mod_upper_bound; lia|]. rewrite (Nat.div_mod k p ltac:(lia)) at 1. rewrite Nat.add_comm, orb_add, Nat.mul_comm, (Per _ _ Zc). reflexivity. }
    assert (Uk : forall k, exists k', (k' < p)%nat /\ orb m k u = orb m k' z) by (intros k; unfold u; rewrite <- orb_add; apply Red).
    assert (Uf : forall k, m (orb m k u) <> orb m k u).
    { intros k. destruct (Uk k) as (k' & Lk & ->). unfold z. rewrite <- orb_add. apply St. unfold p in *. lia. }
    assert (Um : forall k, (u <= orb m k u)%nat) by (intros k; destruct (Uk k) as (k' & Lk & ->); apply Mn, Lk).
    assert (Uc : orb m p u = u) by (unfold u; rewrite <- orb_add, Nat.add_comm, orb_add, Zc; reflexivity).
    destruct (Own u (Uf 0%nat)) as (i & Li & Hi). destruct (Wait i u Hi) as (_ & Sp & Lk & Pc).
    assert (Tg : forall k, tgt (orb m k u) = Some (orb m (S k) u)). { intros k. destruct (Own _ (Uf k)) as (j & _ & Hj). destruct (Wait j _ Hj) as (_ & _ & (_ & _ & T) & _). rewrite T. reflexivity. }
    assert (Rc : forall cur, reach tgt u cur -> exists j, (j < p)%nat /\ cur = orb m j u).
    { intros cur R. induction R as [|x y' R (j & Lj & ->) E]; [exists 0%nat; split; [lia|reflexivity]|]. rewrite Tg in E. injection E as <-. destruct (Nat.eq_dec (S j) p) as [E|]; [exists 0%nat; split; [lia|change (orb m (S j) u = u); rewrite E; exact Uc]|exists (S j); split; [lia|reflexivity]]. }
    assert (N1 : forall c, m c = u -> spins s m 1 (CCheck u (m u) c u) = None) by (intros c Ec; cbn; rewrite Ec, !Nat.eqb_refl; reflexivity).
    assert (N2 : spins s m (n + 2) (CLoop u (m u)) = None).
    { destruct (mstate_eqb (s (m u)) Prog) eqn:E; [|replace (n + 2)%nat with (S (n + 1)) by lia; cbn [spins spin]; rewrite E; reflexivity].
      destruct (walk_cycle s m u (m u) p ltac:(lia) Uc Uf Um (p - 1) 0 u ltac:(lia)) as (q & c' & Lq & Ec & sm' & Eq' & Es). rewrite (Es eq_refl) in Eq'.
      apply (spins_none s m (1 + (q + 1))); [|lia]. apply (spins_then s m 1 _ (CWalk u (m u) u u)); [cbn [spins spin]; rewrite E; reflexivity|]. apply (spins_then s m q _ _ Eq'). apply N1, Ec. }
    assert (N3 : forall c sm, spins s m (n + 3) (CCheck u (m u) c sm) = None).
    { intros c sm. replace (n + 3)%nat with (S (n + 2)) by lia. cbn [spins spin]. destruct (_ && _); [reflexivity|]. destruct (mstate_eqb _ _); [exact N2|reflexivity]. }
    apply Sp. destruct Pc as [(cur & sm & [E|E] & R)|E]; rewrite E.
    + destruct (Rc cur R) as (j & Lj & ->). destruct (walk_cycle s m u (m u) p ltac:(lia) Uc Uf Um (p - 1 - j) j sm ltac:(lia)) as (q & c' & Lq & _ & sm' & Eq' & _).
      apply (spins_none s m (q + (n + 3))); [|lia]. apply (spins_then s m q _ _ Eq'). apply N3.
    + apply (spins_none s m (n + 3)); [apply N3|lia].
    + apply (spins_none s m (n + 2)); [exact N2|lia].
  - (* every orbit ends *)
    assert (En : forall y, exists k, (k <= n)%nat /\ m (orb m k y) = orb m k y).
    { intros y. destruct (Nat.eq_dec (m y) y) as [E|Ne]; [exists 0%nat; split; [lia|exact E]|]. destruct (Own y Ne) as (i & Li & Hi).
      assert (Sy : stays y = false). { apply not_true_iff_false. intros Q. assert (X : existsb (fun i => match own (cth st i) with Some y => stays y | None => false end) (seq 0 n) = true) by (apply existsb_exists; exists i; split; [apply in_seq; lia|rewrite Hi; exact Q]). congruence. }
      assert (Q : exists k, In k (seq 0 (S n)) /\ Nat.eqb (m (orb m k y)) (orb m k y) = true).
      { unfold stays in Sy. clear - Sy. induction (seq 0 (S n)) as [|k l IH]; [discriminate|]. cbn [forallb] in Sy. destruct (Nat.eqb (m (orb m k y)) (orb m k y)) eqn:E; [exists k; split; [left; reflexivity|exact E]|]. destruct (IH Sy) as (k' & H1 & H2). exists k'. split; [right; exact H1|exact H2]. }
      destruct Q as (k & Hk & Ek). apply in_seq in Hk. apply Nat.eqb_eq in Ek. exists k. split; [lia|exact Ek]. }
    assert (Ny : m y0 <> y0) by (destruct (Wait i0 y0 Hy0) as (_ & _ & (T1 & _ & _) & _); congruence).
    assert (Last : exists x, m x <> x /\ m (m x) = m x).
    { destruct (En y0) as (k & _ & Ek). clear - Ny Ek. revert y0 Ny Ek. induction k as [|k IH]; intros y Ny Ek; [destruct (Ny Ek)|]. destruct (Nat.eq_dec (m (m y)) (m y)) as [E|Ne]; [exists y; auto|]. apply (IH (m y) Ne). rewrite orb_shift. exact Ek. }
    destruct Last as (x & Nx & Fx). destruct (Own x Nx) as (i & Li & Hi). destruct (Wait i x Hi) as (_ & Sp & _ & Pc).
    assert (Np : mstate_eqb (s (m x)) Prog = false). { destruct (s (m x)) eqn:E; try reflexivity. exfalso. apply (Prg _ E), Fx. }
    assert (N3 : forall c sm, spins s m 1 (CCheck x (m x) c sm) = None) by (intros c sm; cbn; rewrite Np; destruct (_ && _); reflexivity).
    apply Sp. destruct Pc as [(cur & sm & [E|E] & R)|E]; rewrite E.
    + destruct (En cur) as (k & Lk & Ek). destruct (walk_ends s m x (m x) k cur sm Ek) as (j & c' & sm' & Lj & Ej). apply (spins_none s m (j + 1)); [|lia]. apply (spins_then s m j _ _ Ej). apply N3.
    + apply (spins_none s m 1); [apply N3|lia].
    + apply (spins_none s m 1); [cbn; rewrite Np; reflexivity|lia].
Qed.

(** A stretch of an execution in which every thread returns or takes 2n + 5 steps lowers the ranking. *)
Lemma round_decreases tgt st l st' : live_inv n tgt st -> no_begin l -> run st l = Some st' -> ~ cl_done n st ->
  (forall i, (i < n)%nat -> cth st' i = CIdle \/ (2 * n + 5 <= steps_of i l)%nat) -> (total st' < total st)%nat.
Proof.
  intros L NB E ND Fr. destruct (run_rank l tgt st st' L NB E) as [Lt|(_ & _ & _ & Sp)]; [exact Lt|]. exfalso. apply (some_leaves tgt st L ND).
  intros i Hi. destruct (Fr i Hi) as [Id|St].
  - left. specialize (Sp i). rewrite Id in Sp. revert Sp. generalize (cth st i). generalize (steps_of i l). clear. intros k. induction k as [|k IH]; intros c Sp; cbn in Sp; [congruence|].
    destruct (spin (ms st) (mp st) c) as [c'|] eqn:E; [|discriminate]. specialize (IH c' Sp). subst c'. exfalso. destruct c; cbn [spin] in E; try discriminate; try (destruct (_ && _)); try discriminate; try (destruct (mstate_eqb _ _)); discriminate.
  - right. intros N. pose proof (spins_none (ms st) (mp st) _ _ _ N St) as X. rewrite (Sp i) in X. discriminate.
Qed.
Lemma no_idle_step st i ok : cth st i = CIdle -> step st (CAdv i ok) = None.
Proof. intros E. cbn [cl_step]. unfold cl_adv. rewrite E. destruct (i <? n)%nat; reflexivity. Qed.
Lemma total_done st : total st = 0%nat -> cl_done n st.
Proof.
  unfold total. intros E i Hi. apply (rank_0 (ms st)). assert (Hin : In i (seq 0 n)) by (apply in_seq; lia). revert E Hin. generalize (seq 0 n). induction l as [|x l IH]; intros E Hin; [destruct Hin|].
  cbn [map] in E. rewrite sum_cons in E. destruct Hin as [->|Hin]; [lia|apply IH; [lia|exact Hin]].
Qed.
End Live.

(** An infinite execution: [S t] is the state after t steps, [sg t] the t-th step. *)
Definition execution nodes w com maxw n (S : nat -> cluster_st) (sg : nat -> clabel) : Prop :=
  (exists l, cl_run nodes w com maxw n (cl_init w) l = Some (S 0%nat)) /\ forall t, cl_step nodes w com maxw n (S t) (sg t) = Some (S (Datatypes.S t)).
(** Weak fairness: a thread inside matchVertices is scheduled again or has left matchVertices. *)
Definition fair n (S : nat -> cluster_st) (sg : nat -> clabel) : Prop :=
  forall i t, (i < n)%nat -> exists t', (t <= t')%nat /\ (cth (S t') i = CIdle \/ exists ok, sg t' = CAdv i ok).

Section Fair.
Variables (nodes : list nat) (w : nat -> Z) (com : nat -> nat) (maxw : Z) (n : nat) (St : nat -> cluster_st) (sg : nat -> clabel).
Hypothesis (Ex : execution nodes w com maxw n St sg) (Fr : fair n St sg).
Variable t0 : nat.
Hypothesis NB : forall t i u v, (t0 <= t)%nat -> sg t <> CBegin i u v.
Set Default Proof Using "All".

Definition seg (a d : nat) : list clabel := map sg (seq a d).
Lemma seg_run : forall d a, cl_run nodes w com maxw n (St a) (seg a d) = Some (St (a + d)).
Proof.
  induction d as [|d IH]; intros a; [rewrite Nat.add_0_r; reflexivity|]. unfold seg. cbn [seq map cl_run fold_opt]. destruct Ex as [_ E]. unfold cl_run. cbn [fold_opt]. rewrite E. replace (a + S d)%nat with (S a + d)%nat by lia. apply IH.
Qed.
Lemma live_at t : exists tgt, live_inv n tgt (St t).
Proof.
  destruct Ex as [[l El] _]. apply (live_reachable nodes w com maxw n (l ++ seg 0 t)). unfold cl_run. rewrite fold_opt_app. unfold cl_run in El. rewrite El. apply (seg_run t 0).
Qed.
Lemma idle_stays i : forall d a, (t0 <= a)%nat -> cth (St a) i = CIdle -> cth (St (a + d)) i = CIdle.
Proof.
  induction d as [|d IH]; intros a La E; [rewrite Nat.add_0_r; exact E|]. replace (a + S d)%nat with (S a + d)%nat by lia. apply IH; [lia|]. destruct Ex as [_ Es]. specialize (Es a). destruct (sg a) as [j u v|j ok] eqn:Ea; [destruct (NB a j u v La Ea)|].
  destruct (Nat.eq_dec j i) as [->|Ne]; [rewrite no_idle_step in Es by exact E; discriminate|].
  cbn [cl_step] in Es. destruct (j <? n)%nat; [|discriminate]. unfold cl_adv in Es.
  assert (Q : exists st1 c, St (S a) = goto st1 j c /\ cth st1 = cth (St a)).
  { destruct (cth (St a) j); try discriminate; repeat (destruct (mstate_eqb _ _)); injection Es as <-; eexists; eexists; split; reflexivity. }
  destruct Q as (st1 & c & -> & Et). cbn [cth goto]. rewrite upd_other by congruence. rewrite Et. exact E.
Qed.
Lemma steps_seg i a d d' : (d <= d')%nat -> (steps_of i (seg a d) <= steps_of i (seg a d'))%nat.
Proof. intros Ld. unfold seg. replace d' with (d + (d' - d))%nat by lia. rewrite seq_app, map_app. unfold steps_of. rewrite filter_app, app_length. lia. Qed.
Lemma one_many i : forall k a, (t0 <= a)%nat -> (i < n)%nat -> exists d, cth (St (a + d)) i = CIdle \/ (k <= steps_of i (seg a d))%nat.
Proof.
  induction k as [|k IH]; intros a La Hi; [exists 0%nat; right; lia|]. destruct (IH a La Hi) as (d & [Id|Sk]); [exists d; auto|]. destruct (Fr i (a + d)%nat Hi) as (t' & Lt & [Id|[ok Eo]]).
  - exists (t' - a)%nat. left. replace (a + (t' - a))%nat with t' by lia. exact Id.
  - exists (S (t' - a)). right. unfold seg. rewrite seq_S, map_app. replace (a + (t' - a))%nat with t' by lia. unfold steps_of. rewrite filter_app, app_length. cbn [map filter]. rewrite Eo, Nat.eqb_refl. cbn [length].
    pose proof (steps_seg i a d (t' - a)%nat ltac:(lia)) as X. unfold steps_of in X, Sk. fold (seg a (t' - a)). lia.
Qed.
Lemma all_many k : forall m a, (t0 <= a)%nat -> (m <= n)%nat -> exists d, forall i, (i < m)%nat -> cth (St (a + d)) i = CIdle \/ (k <= steps_of i (seg a d))%nat.
Proof.
  induction m as [|m IH]; intros a La Hm; [exists 0%nat; intros; lia|]. destruct (IH a La ltac:(lia)) as (d & Hd). destruct (one_many m k a La ltac:(lia)) as (d' & Hd').
  assert (Ext : forall i x y, (x <= y)%nat -> cth (St (a + x)) i = CIdle \/ (k <= steps_of i (seg a x))%nat -> cth (St (a + y)) i = CIdle \/ (k <= steps_of i (seg a y))%nat).
  { intros i x y Lxy [Id|Sk]; [left|right; pose proof (steps_seg i a x y Lxy); lia]. replace (a + y)%nat with ((a + x) + (y - x))%nat by lia. apply idle_stays; [lia|exact Id]. }
  exists (Nat.max d d'). intros i Hi. destruct (Nat.eq_dec i m) as [->|]; [apply (Ext m d'); [lia|exact Hd']|apply (Ext i d); [lia|apply Hd; lia]].
Qed.
Lemma done_stuck a : (t0 <= a)%nat -> ~ cl_done n (St a).
Proof.
  intros La Dn. destruct Ex as [_ Es]. specialize (Es a). destruct (sg a) as [j u v|j ok] eqn:Ea; [destruct (NB a j u v La Ea)|]. destruct (lt_dec j n) as [Lj|Gj].
  - rewrite no_idle_step in Es by (apply Dn, Lj). discriminate.
  - cbn [cl_step] in Es. assert (X : (j <? n)%nat = false) by (apply Nat.ltb_ge; lia). rewrite X in Es. discriminate.
Qed.
Lemma no_fair_execution : forall k a, (t0 <= a)%nat -> (total n (St a) <= k)%nat -> False.
Proof.
  induction k as [|k IH]; intros a La Tk; [apply (done_stuck a La), (total_done w com n (St a)); clear - Tk; lia|]. destruct (all_many (2 * n + 5) n a La (le_n n)) as (d & Hd). destruct (live_at a) as (tgt & L).
  apply (IH (a + d)%nat); [lia|]. enough (total n (St (a + d)) < total n (St a))%nat by lia. apply (round_decreases nodes w com maxw n tgt (St a) (seg a d)); auto.
  - intros i u v Hi. unfold seg in Hi. apply in_map_iff in Hi. destruct Hi as (t & Et & Ht). apply in_seq in Ht. apply (NB t i u v); [lia|exact Et].
  - apply seg_run.
  - apply done_stuck, La.
Qed.
End Fair.

(** Never stuck: in a reachable state some thread inside matchVertices can always step. *)
Theorem C56_clustering_never_stuck nodes w com maxw n st i ok : (i < n)%nat -> cth st i <> CIdle -> exists st', cl_step nodes w com maxw n st (CAdv i ok) = Some st'.
Proof.
  intros Hi Ni. cbn [cl_step]. assert (X : (i <? n)%nat = true) by (apply Nat.ltb_lt; lia). rewrite X. unfold cl_adv. destruct (cth st i); try congruence; eauto; destruct (mstate_eqb _ _); eauto.
Qed.
(** C56: under every weakly fair schedule finitely many calls of matchVertices end: there is no deadlock and no livelock of the
    conflict resolution.  (An infinite fair execution starts new calls again and again.) *)
Theorem C56_clustering_terminates nodes w com maxw n St sg : execution nodes w com maxw n St sg -> fair n St sg ->
  forall t0, ~ (forall t i u v, (t0 <= t)%nat -> sg t <> CBegin i u v).
Proof. intros E F t0 NB. apply (no_fair_execution nodes w com maxw n St sg E F t0 NB (total n (St t0)) t0); lia. Qed.
