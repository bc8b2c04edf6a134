(** ClusterExact.v - Cluster.v is exact in every execution in which no cyclic matching dependency is resolved; executions that
    do resolve one can violate each part of it (refutations at the end). *)
From Verif Require Import Base Cluster ClusterLive ClusterWeight.

(** A thread that decided at :437 to resolve a cyclic dependency. *)
Definition resolving (c : cpc) : bool := match c with CJoin _ _ (KRes _) | CSetId _ _ (KRes _) | CAdd _ _ (KRes _) | CSetV _ _ true => true | _ => false end.
Definition holds (c : cpc) (x : nat) : Prop := own c = Some x \/ grab c = Some x.
Definition into (s : nat -> mstate) (d : nat -> nat) (r : nat) (k : kont) : Prop :=
  match k with KEnd => s r = Mat /\ d r = r | KGrab v => r = v | KRes _ => False end.
Definition xtok (s : nat -> mstate) (d : nat -> nat) (c : cpc) : Prop :=
  match c with
  | CIdle | CWeight _ _ | CCasU _ _ => True
  | CPartner u _ | CLoadV u _ | CCasV u _ | CWalk u _ _ _ | CCheck u _ _ _ | CLoop u _ => d u = u
  | CRead u v | CAfter u v => d u = u /\ s v = Mat
  | CJoin u r k | CSetId u r k => d u = u /\ u <> r /\ into s d r k
  | CAdd u r k => d u = r /\ u <> r /\ into s d r k
  | CSetV u v r => r = false /\ u <> v /\ (d u = u \/ d u = v)
  | CFin1 u | CFin2 u => d u = u \/ (s (d u) = Mat /\ d (d u) = d u)
  end.
Lemma xtok_mono s s' d d' c : xtok s d c -> (forall y, s y = Mat -> s' y = Mat /\ d' y = d y) -> (forall y, holds c y -> d' y = d y) -> xtok s' d' c.
Proof.
  intros T M O. unfold holds in O. destruct c as [|u v|u v|u v|u v|u v|u v|u r k|u r k|u r k|u v r|u v cur sm|u v cur sm|u v|u v|u|u]; cbn [xtok own] in *; try exact T; try (rewrite (O u) by (left; reflexivity)); try exact T.
  - destruct T as [T1 T2]. destruct (M v T2). auto.
  - destruct T as (T1 & T2 & T3). split; [exact T1|]. split; [exact T2|]. destruct k; cbn [into] in *; auto. destruct T3 as [T3 T4]. destruct (M r T3). split; congruence.
  - destruct T as (T1 & T2 & T3). split; [exact T1|]. split; [exact T2|]. destruct k; cbn [into] in *; auto. destruct T3 as [T3 T4]. destruct (M r T3). split; congruence.
  - destruct T as (T1 & T2 & T3). split; [exact T1|]. split; [exact T2|]. destruct k; cbn [into] in *; auto. destruct T3 as [T3 T4]. destruct (M r T3). split; congruence.
  - destruct T as [T1 T2]. destruct (M v T2). auto.
  - destruct T as [T|[T1 T2]]; [auto|]. destruct (M _ T1). right. split; congruence.
  - destruct T as [T|[T1 T2]]; [auto|]. destruct (M _ T1). right. split; congruence.
Qed.

Section Exact.
Variables (nodes : list nat) (w : nat -> Z) (com : nat -> nat) (maxw : Z) (n : nat).
Hypothesis ND : NoDup nodes.
Set Default Proof Using "All".
Record xinv (st : cluster_st) : Prop := {
  x_tok : forall i, xtok (ms st) (cid st) (cth st i);
  x_held : forall i y, holds (cth st i) y -> ms st y = Prog;
  x_ex : forall i j y, holds (cth st i) y -> holds (cth st j) y -> i = j;
  x_grab : forall i y, grab (cth st i) = Some y -> cid st y = y;
  x_unm : forall y, ms st y = Unm -> cid st y = y;
  x_mat : forall y, ms st y = Mat -> ms st (cid st y) = Mat /\ cid st (cid st y) = cid st y;
  x_cw : forall r, cw st r + sumZ (fun i => pend w r (cth st i)) (seq 0 n) = w r + sumZ (fun x => if Nat.eqb x r then 0 else if Nat.eqb (cid st x) r then w x else 0) nodes;
  x_cn : cn st + sumZ (fun i => pend1 (cth st i)) (seq 0 n) = sumZ (fun x => if Nat.eqb (cid st x) x then 0 else 1) nodes
}.
Lemma xinv_init : xinv (cl_init w).
Proof.
  constructor; cbn [cl_init ms cid cw cn cth]; intros; try exact I; try (destruct H; discriminate); try discriminate; try reflexivity.
  - rewrite !sumZ_zero; [lia| |reflexivity]. intros x _. destruct (Nat.eqb x r); reflexivity.
  - rewrite !sumZ_zero; [lia| |reflexivity]. intros x _. rewrite Nat.eqb_refl. reflexivity.
Qed.
Lemma xinv_frame st st' i c : xinv st -> (i < n)%nat -> cth st' = upd (cth st) i c ->
  (forall y, ms st y = Mat -> ms st' y = Mat /\ cid st' y = cid st y) ->
  (forall j y, j <> i -> holds (cth st j) y -> ms st' y = ms st y /\ cid st' y = cid st y) ->
  xtok (ms st') (cid st') c ->
  (forall y, holds c y -> ms st' y = Prog /\ (holds (cth st i) y \/ ms st y = Unm)) ->
  (forall y, grab c = Some y -> cid st' y = y) ->
  (forall y, ms st' y = Unm -> cid st' y = y) ->
  (forall y, ms st' y = Mat -> ms st y = Mat \/ (ms st' (cid st' y) = Mat /\ cid st' (cid st' y) = cid st' y)) ->
  (forall r, cw st' r + pend w r c = cw st r + pend w r (cth st i) + (sumZ (fun x => if Nat.eqb x r then 0 else if Nat.eqb (cid st' x) r then w x else 0) nodes - sumZ (fun x => if Nat.eqb x r then 0 else if Nat.eqb (cid st x) r then w x else 0) nodes)) ->
  (cn st' + pend1 c = cn st + pend1 (cth st i) + (sumZ (fun x => if Nat.eqb (cid st' x) x then 0 else 1) nodes - sumZ (fun x => if Nat.eqb (cid st x) x then 0 else 1) nodes)) ->
  xinv st'.
Proof.
  intros [A B C D E F G K] Hi Et M O T Hc Gc U Mt Sw Sn. constructor.
  - intros j. rewrite Et. unfold upd. destruct (Nat.eqb_spec j i) as [->|Nj]; [exact T|]. apply (xtok_mono (ms st) _ (cid st) _ _ (A j) M). intros y Hy. apply (O j y Nj Hy).
  - intros j y. rewrite Et. unfold upd. destruct (Nat.eqb_spec j i) as [->|Nj]; [intros Hy; apply Hc, Hy|]. intros Hy. destruct (O j y Nj Hy) as [-> _]. apply (B j y Hy).
  - assert (X : forall j y, j <> i -> holds c y -> holds (cth st j) y -> False).
    { intros j y Nj H1 H2. destruct (Hc y H1) as [_ [Hh|Hu]]; [apply Nj, (C j i y H2 Hh)|]. rewrite (B j y H2) in Hu. discriminate. }
    intros j k y. rewrite Et. unfold upd. destruct (Nat.eqb_spec j i) as [->|Nj], (Nat.eqb_spec k i) as [->|Nk]; auto; intros H1 H2; [destruct (X k y Nk H1 H2)|destruct (X j y Nj H2 H1)|apply (C j k y H1 H2)].
  - intros j y. rewrite Et. unfold upd. destruct (Nat.eqb_spec j i) as [->|Nj]; [apply Gc|]. intros Hy. destruct (O j y Nj (or_intror Hy)) as [_ ->]. apply (D j y Hy).
  - exact U.
  - intros y Hy. destruct (Mt y Hy) as [Hm|Hm]; [|exact Hm]. destruct (F y Hm) as [F1 F2]. destruct (M y Hm) as [_ M1]. destruct (M _ F1) as [M2 M3]. rewrite M1. split; [exact M2|]. rewrite M3. exact F2.
  - intros r. rewrite Et, sum_upd by exact Hi. specialize (G r). specialize (Sw r). lia.
  - rewrite Et, sum_upd by exact Hi. lia.
Qed.
(** Only the program counter moves and the thread holds no new vertex. *)
Lemma xinv_pc st i c : xinv st -> (i < n)%nat -> xtok (ms st) (cid st) c -> (forall y, holds c y -> holds (cth st i) y) -> (forall y, grab c = Some y -> grab (cth st i) = Some y) ->
  (forall r, pend w r c = pend w r (cth st i)) -> pend1 c = pend1 (cth st i) -> xinv (goto st i c).
Proof.
  intros X Hi T Hc Gc Pw Pn. pose proof X as [A B C D E F G K]. apply (xinv_frame st (goto st i c) i c X Hi eq_refl); cbn [goto ms cid cw cn]; auto.
  - intros y Hy. specialize (Hc y Hy). split; [apply (B i y Hc)|left; exact Hc].
  - intros y Hy. apply (D i y), Gc, Hy.
  - intros r. rewrite Pw. lia.
  - rewrite Pn. lia.
Qed.
Lemma xinv_step tgt st l st' : live_inv n tgt st -> safe nodes com st -> xinv st -> cl_step nodes w com maxw n st l = Some st' -> (forall i, resolving (cth st' i) = false) -> xinv st'.
Proof.
  intros L Sf X E NR. pose proof X as [A B C D Eu F G K]. destruct l as [i u v|i ok]; cbn [cl_step] in E.
  - destruct (cth st i) eqn:Et; try discriminate. destruct (_ && _) eqn:Gd; [|discriminate]. injection E as <-. repeat (apply andb_true_iff in Gd; destruct Gd as [Gd ?]). apply Nat.ltb_lt in Gd.
    apply (xinv_pc st i _ X Gd); rewrite ?Et; cbn; auto.
  - destruct (i <? n)%nat eqn:Hi; [|discriminate]. apply Nat.ltb_lt in Hi. unfold cl_adv in E. pose proof (A i) as Ti. pose proof (v_tok n tgt st L i) as Tl. pose proof (s_pc nodes com st Sf i) as O. pose proof (NR i) as Nr.
    assert (Hb : forall y, holds (cth st i) y -> ms st y = Prog) by (apply B).
    assert (Frame : forall v s, (ms st v = Unm \/ (s = Mat /\ holds (cth st i) v)) -> forall j y, j <> i -> holds (cth st j) y -> upd (ms st) v s y = ms st y).
    { intros v0 s0 Hv j y Nj Hy. unfold upd. destruct (Nat.eqb_spec y v0) as [->|]; [|reflexivity]. destruct Hv as [Hv|[_ Hv]]; [rewrite (B j v0 Hy) in Hv; discriminate|]. destruct (Nj (C j i v0 Hy Hv)). }
    destruct (cth st i) as [|u v|u v|u v|u v|u v|u v|u r k|u r k|u r k|u v r|u v cur sm|u v cur sm|u v|u v|u|u] eqn:Et; try discriminate; cbn [xtok tok] in Ti, Tl.
    + injection E as <-. destruct (_ <=? _); apply (xinv_pc st i _ X Hi); rewrite ?Et; cbn; auto; intros y [Hy|Hy]; discriminate.
    + destruct (ms st u) eqn:Em; cbn [mstate_eqb] in E; injection E as <-.
      * apply (xinv_frame st _ i (CPartner u v) X Hi); [reflexivity|..]; cbn [goto set_ms ms cid cw cn].
        -- intros y Hy. split; [|reflexivity]. unfold upd. destruct (Nat.eqb_spec y u); [congruence|exact Hy].
        -- intros j y Nj Hy. split; [apply (Frame u Prog (or_introl Em) j y Nj Hy)|reflexivity].
        -- cbn. apply Eu, Em.
        -- intros y [Hy|Hy]; [|discriminate]. cbn in Hy. injection Hy as <-. rewrite upd_same. auto.
        -- intros y Hy. discriminate.
        -- intros y. unfold upd. destruct (Nat.eqb_spec y u) as [->|]; [discriminate|apply Eu].
        -- intros y. unfold upd. destruct (Nat.eqb_spec y u) as [->|]; [discriminate|auto].
        -- intros r. rewrite Et. cbn [pend]. lia.
        -- rewrite Et. cbn [pend1]. lia.
      * apply (xinv_pc st i _ X Hi); rewrite ?Et; cbn; auto; intros y [Hy|Hy]; discriminate.
      * apply (xinv_pc st i _ X Hi); rewrite ?Et; cbn; auto; intros y [Hy|Hy]; discriminate.
    + injection E as <-. apply (xinv_frame st _ i (CLoadV u v) X Hi); [reflexivity|..]; cbn [goto set_mp ms cid cw cn]; auto.
      * intros y Hy. split; [apply Hb; exact Hy|left; rewrite Et; exact Hy].
      * intros y Hy. discriminate.
      * intros r. rewrite Et. cbn [pend]. lia.
      * rewrite Et. cbn [pend1]. lia.
    + injection E as <-. destruct (ms st v) eqn:Ev; apply (xinv_pc st i _ X Hi); rewrite ?Et; cbn; auto.
    + injection E as <-. destruct Ti as [T1 T2]. destruct (F v T2) as [F1 F2]. apply (xinv_pc st i _ X Hi); rewrite ?Et; cbn; auto. split; [exact T1|]. split; [|auto]. intros Q. assert (P : ms st u = Prog) by (apply Hb; left; reflexivity). congruence.
    + destruct (ms st v) eqn:Em; cbn [mstate_eqb] in E; injection E as <-.
      * assert (Nuv : u <> v) by (destruct Tl as [(T1 & _) _]; exact T1).
        apply (xinv_frame st _ i (CJoin u v (KGrab v)) X Hi); [reflexivity|..]; cbn [goto set_ms ms cid cw cn].
        -- intros y Hy. split; [|reflexivity]. unfold upd. destruct (Nat.eqb_spec y v); [congruence|exact Hy].
        -- intros j y Nj Hy. split; [apply (Frame v Prog (or_introl Em) j y Nj Hy)|reflexivity].
        -- cbn. auto.
        -- intros y [Hy|Hy]; cbn in Hy; injection Hy as <-; [|rewrite upd_same; auto]. rewrite upd_other by congruence. split; [apply Hb; left; reflexivity|left; rewrite Et; left; reflexivity].
        -- intros y Hy. cbn in Hy. injection Hy as <-. apply Eu, Em.
        -- intros y. unfold upd. destruct (Nat.eqb_spec y v) as [->|]; [discriminate|apply Eu].
        -- intros y. unfold upd. destruct (Nat.eqb_spec y v) as [->|]; [discriminate|auto].
        -- intros r. rewrite Et. cbn [pend]. lia.
        -- rewrite Et. cbn [pend1]. lia.
      * apply (xinv_pc st i _ X Hi); rewrite ?Et; cbn; auto.
      * apply (xinv_pc st i _ X Hi); rewrite ?Et; cbn; auto.
    + (* the check *) injection E as <-. destruct Ti as (T1 & T2 & T3). destruct (_ && _).
      * apply (xinv_pc st i _ X Hi); rewrite ?Et; cbn; auto.
      * destruct k as [|v|v]; cbn [into] in T3; [| |destruct T3]; apply (xinv_pc st i _ X Hi); rewrite ?Et; cbn; auto. split; [reflexivity|]. subst v. auto.
    + (* the store of the cluster id *) injection E as <-. destruct Ti as (T1 & T2 & T3). assert (Hu : In u nodes) by (apply O; destruct k; left; reflexivity). assert (Pu : ms st u = Prog) by (apply Hb; left; reflexivity).
      assert (Nh : forall j y, j <> i -> holds (cth st j) y -> y <> u) by (intros j y Nj Hy ->; apply Nj; apply (C j i u Hy); rewrite Et; left; reflexivity).
      apply (xinv_frame st _ i (CAdd u r k) X Hi); [reflexivity|..]; cbn [goto set_cid ms cid cw cn].
      * intros y Hy. split; [exact Hy|]. apply upd_other. intros ->. congruence.
      * intros j y Nj Hy. split; [reflexivity|]. apply upd_other, (Nh j y Nj Hy).
      * cbn. rewrite upd_same. split; [reflexivity|]. split; [exact T2|]. destruct k; cbn [into] in *; auto. rewrite upd_other by congruence. exact T3.
      * intros y Hy. assert (Hy' : holds (cth st i) y) by (rewrite Et; exact Hy). split; [rewrite <- Et in Hb; apply Hb; rewrite Et; exact Hy|left; exact Hy'].
      * intros y Hy. assert (Gy : grab (cth st i) = Some y) by (rewrite Et; exact Hy). rewrite upd_other; [apply (D i y Gy)|]. intros ->. destruct k as [|v|v]; cbn in Hy; try discriminate. injection Hy as ->. cbn [into] in T3. congruence.
      * intros y Hy. rewrite upd_other; [apply Eu, Hy|]. intros ->. congruence.
      * auto.
      * intros q. rewrite Et. cbn [pend]. rewrite (sum_cid (fun x y => if Nat.eqb x q then 0 else if Nat.eqb y q then w x else 0) (cid st) nodes u r ND Hu). rewrite T1. destruct (Nat.eqb_spec u q) as [->|]; [assert (Q : Nat.eqb r q = false) by (apply Nat.eqb_neq; congruence); rewrite Q|]; lia.
      * rewrite Et. cbn [pend1]. rewrite (sum_cid (fun x y => if Nat.eqb y x then 0 else 1) (cid st) nodes u r ND Hu). rewrite T1, Nat.eqb_refl. assert (Q : Nat.eqb r u = false) by (apply Nat.eqb_neq; congruence). rewrite Q. lia.
    + (* the addition *) injection E as <-. destruct Ti as (T1 & T2 & T3). assert (Kk : match k with KRes _ => False | _ => True end) by (destruct k; [exact I|exact I|exact T3]).
      apply (xinv_frame st _ i (return_to u k) X Hi); [reflexivity|..]; cbn [goto add_cw ms cid cw cn]; auto.
      * destruct k as [|v|v]; cbn [return_to xtok into] in *; [|subst v; auto|destruct Kk]. right. rewrite T1. auto.
      * intros y Hy. assert (Hy' : holds (cth st i) y) by (rewrite Et; destruct k; [exact Hy|exact Hy|destruct Kk]). split; [|left; exact Hy']. apply Hb. rewrite Et in Hy'. exact Hy'.
      * intros y Hy. apply (D i y). rewrite Et. destruct k; [exact Hy|exact Hy|destruct Kk].
      * intros q. rewrite Et. assert (Rz : pend w q (return_to u k) = 0) by (destruct k; reflexivity). rewrite Rz. cbn [pend]. unfold upd. rewrite (Nat.eqb_sym r q). destruct (Nat.eqb_spec q r) as [->|]; lia.
      * rewrite Et. assert (Rz : pend1 (return_to u k) = 0) by (destruct k; reflexivity). rewrite Rz. cbn [pend1]. lia.
    + (* v matched *) injection E as <-. destruct Ti as (-> & T2 & T3). assert (Gv : cid st v = v) by (apply (D i v); rewrite Et; reflexivity).
      assert (Hv : holds (CSetV u v false) v) by (right; reflexivity).
      apply (xinv_frame st _ i (CFin1 u) X Hi); [reflexivity|..]; cbn [goto set_ms ms cid cw cn].
      * intros y Hy. split; [|reflexivity]. unfold upd. destruct (Nat.eqb_spec y v); [reflexivity|exact Hy].
      * intros j y Nj Hy. split; [apply (Frame v Mat (or_intror (conj eq_refl Hv)) j y Nj Hy)|reflexivity].
      * cbn [xtok]. destruct T3 as [T3|T3]; [left; exact T3|right]. rewrite T3, upd_same. auto.
      * intros y [Hy|Hy]; [|discriminate]. cbn in Hy. injection Hy as <-. rewrite upd_other by exact T2. split; [apply Hb; left; reflexivity|left; rewrite Et; left; reflexivity].
      * intros y Hy. discriminate.
      * intros y. unfold upd. destruct (Nat.eqb_spec y v) as [->|]; [discriminate|apply Eu].
      * intros y Hy. destruct (Nat.eq_dec y v) as [->|Ny]; [right; rewrite Gv, upd_same; auto|left]. rewrite upd_other in Hy by exact Ny. exact Hy.
      * intros r. rewrite Et. cbn [pend]. lia.
      * rewrite Et. cbn [pend1]. lia.
    + injection E as <-. destruct (_ && _); apply (xinv_pc st i _ X Hi); rewrite ?Et; cbn; auto.
    + (* no resolution *) injection E as <-. cbn [cth goto] in Nr. rewrite upd_same in Nr. destruct (_ && _); [discriminate|]. apply (xinv_pc st i _ X Hi); rewrite ?Et; cbn; auto.
    + injection E as <-. destruct Tl as (_ & _ & Tv). destruct (ms st v) eqn:Ev; cbn [mstate_eqb]; try congruence; apply (xinv_pc st i _ X Hi); rewrite ?Et; cbn; auto.
    + injection E as <-. assert (P : ms st u = Prog) by (apply Hb; left; reflexivity). rewrite P. cbn [mstate_eqb]. apply (xinv_pc st i _ X Hi); rewrite ?Et; cbn; auto.
    + injection E as <-. apply (xinv_frame st _ i (CFin2 u) X Hi); [reflexivity|..]; cbn [goto set_mp ms cid cw cn]; auto.
      * intros y Hy. split; [apply Hb; exact Hy|left; rewrite Et; exact Hy].
      * intros y Hy. discriminate.
      * intros r. rewrite Et. cbn [pend]. lia.
      * rewrite Et. cbn [pend1]. lia.
    + injection E as <-. assert (Hv : holds (CFin2 u) u) by (left; reflexivity).
      apply (xinv_frame st _ i CIdle X Hi); [reflexivity|..]; cbn [goto set_ms ms cid cw cn].
      * intros y Hy. split; [|reflexivity]. unfold upd. destruct (Nat.eqb_spec y u); [reflexivity|exact Hy].
      * intros j y Nj Hy. split; [apply (Frame u Mat (or_intror (conj eq_refl Hv)) j y Nj Hy)|reflexivity].
      * exact I.
      * intros y [Hy|Hy]; discriminate.
      * intros y Hy. discriminate.
      * intros y. unfold upd. destruct (Nat.eqb_spec y u) as [->|]; [discriminate|apply Eu].
      * intros y Hy. destruct (Nat.eq_dec y u) as [->|Ny]; [right|left; rewrite upd_other in Hy by exact Ny; exact Hy]. destruct Ti as [T|[T1 T2]]; [rewrite !T, upd_same; auto|]. split; [|exact T2]. unfold upd. destruct (Nat.eqb _ _); [reflexivity|exact T1].
      * intros r. rewrite Et. cbn [pend]. lia.
      * rewrite Et. cbn [pend1]. lia.
Qed.
End Exact.

Section ExactThm.
Variables (nodes : list nat) (w : nat -> Z) (com : nat -> nat) (maxw : Z) (n : nat).
Definition never_resolves (l : list clabel) : Prop :=
  forall l1 l2 st i, l = l1 ++ l2 -> cl_run nodes w com maxw n (cl_init w) l1 = Some st -> resolving (cth st i) = false.

Lemma xinv_reachable : forall l st, NoDup nodes -> never_resolves l -> cl_run nodes w com maxw n (cl_init w) l = Some st -> xinv nodes w n st.
Proof.
  intros l st ND. revert st. induction l as [|a l IH] using rev_ind; intros st NR E.
  - injection E as <-. exact (xinv_init nodes w com maxw n ND).
  - unfold cl_run in E. rewrite fold_opt_app in E. destruct (fold_opt (cl_step nodes w com maxw n) (cl_init w) l) as [st1|] eqn:E1; [|discriminate]. cbn [fold_opt] in E. destruct (cl_step nodes w com maxw n st1 a) as [st2|] eqn:E2; [|discriminate]. injection E as <-.
    destruct (live_reachable nodes w com maxw n l st1 E1) as [tgt L].
    apply (xinv_step nodes w com maxw n ND tgt st1 a st2 L); auto.
    + apply (cl_run_inv nodes w com maxw n (safe nodes com) (safe_step nodes w com maxw n) l _ st1 (safe_init nodes w com n) E1).
    + apply IH; [|exact E1]. intros l1 l2 s i El Es. apply (NR l1 (l2 ++ [a]) s i); [rewrite El, app_assoc; reflexivity|exact Es].
    + intros i. apply (NR (l ++ [a]) [] st2 i); [rewrite app_nil_r; reflexivity|]. unfold cl_run. rewrite fold_opt_app, E1. cbn [fold_opt]. rewrite E2. reflexivity.
Qed.
Lemma num_clusters (d : nat -> nat) : NoDup nodes -> (forall x, In x nodes -> In (d x) nodes /\ d (d x) = d x) ->
  Z.of_nat (length (nodup Nat.eq_dec (map d nodes))) = Z.of_nat (length nodes) - sumZ (fun x => if Nat.eqb (d x) x then 0 else 1) nodes.
Proof.
  intros ND Hd. assert (P : Permutation (nodup Nat.eq_dec (map d nodes)) (filter (fun x => Nat.eqb (d x) x) nodes)).
  { apply NoDup_Permutation; [apply NoDup_nodup|apply NoDup_filter, ND|]. intros x. rewrite nodup_In, in_map_iff, filter_In, Nat.eqb_eq. split.
    - intros (y & <- & Hy). apply Hd, Hy.
    - intros [Hx E]. exists x. auto. }
  rewrite (Permutation_length P), sumZ_length, sumZ_filter, (sumZ_length nodes), <- sumZ_minus. apply sumZ_ext. intros x _. destruct (Nat.eqb (d x) x); lia.
Qed.

(** C58: if no cyclic matching dependency was resolved, then at the end every node points to the representative of its cluster,
    the recorded weight of every representative is the weight of its cluster, and the reported number of coarse nodes
    (nodes minus contracted nodes, :334) is the number of clusters. *)
Theorem C58_clustering_exact l st : NoDup nodes -> never_resolves l -> cl_run nodes w com maxw n (cl_init w) l = Some st -> cl_done n st ->
  (forall x, In x nodes -> cid st (cid st x) = cid st x) /\
  (forall r, In r nodes -> cid st r = r -> cw st r = coarse_weight nodes w st r) /\
  Z.of_nat (length (nodup Nat.eq_dec (map (cid st) nodes))) = Z.of_nat (length nodes) - cn st.
Proof.
  intros ND NR E Dn. destruct (xinv_reachable l st ND NR E) as [A B C D Eu F G K]. destruct (live_reachable nodes w com maxw n l st E) as [tgt L].
  assert (I : forall x, cid st (cid st x) = cid st x).
  { intros x. destruct (ms st x) eqn:Em; [rewrite !(Eu x Em); reflexivity| |apply (F x Em)]. exfalso. destruct (v_prog n tgt st L x Em) as [i Hi]. assert (Id : cth st i = CIdle) by (destruct (lt_dec i n); [apply Dn; assumption|apply (v_idle n tgt st L); lia]). rewrite Id in Hi. destruct Hi; discriminate. }
  split; [intros x _; apply I|]. split.
  - intros r Hr Er. specialize (G r). rewrite (done_sum n st (pend w r) Dn eq_refl) in G. unfold coarse_weight.
    transitivity (sumZ (fun x => (if Nat.eqb x r then w x else 0) + (if Nat.eqb x r then 0 else if Nat.eqb (cid st x) r then w x else 0)) nodes).
    + rewrite sumZ_plus, (sumZ_indicator nodes r w ND). assert (M : mem r nodes = true) by (apply mem_In, Hr). rewrite M. lia.
    + apply sumZ_ext. intros x _. destruct (Nat.eqb_spec x r) as [->|]; [rewrite Er, Nat.eqb_refl|]; lia.
  - rewrite (done_sum n st pend1 Dn eq_refl) in K. rewrite (num_clusters (cid st) ND); [lia|]. intros x Hx. split; [|apply I]. apply (C55_clusters_respect_communities nodes w com maxw n l st E x), Hx.
Qed.
End ExactThm.

(** One thread never resolves anything. *)
Definition straight (s : nat -> mstate) (c : cpc) : Prop := match c with CCasV _ v => s v = Unm | CWalk _ _ _ _ | CCheck _ _ _ _ | CLoop _ _ | CAfter _ _ => False | _ => resolving c = false end.
Lemma straight_step nodes w com maxw tgt st l st' : live_inv 1 tgt st -> (forall i, straight (ms st) (cth st i)) -> cl_step nodes w com maxw 1 st l = Some st' -> forall i, straight (ms st') (cth st' i).
Proof.
  intros L S E. assert (Idl : forall i, (1 <= i)%nat -> cth st i = CIdle) by apply (v_idle 1 tgt st L). destruct l as [i u v|i ok]; cbn [cl_step] in E.
  - destruct (cth st i) eqn:Et; try discriminate. destruct (_ && _); [|discriminate]. injection E as <-. intros j. cbn [goto ms cth]. unfold upd. destruct (Nat.eqb j i); [reflexivity|apply S].
  - destruct (i <? 1)%nat eqn:Hi; [|discriminate]. apply Nat.ltb_lt in Hi. assert (i = 0%nat) by lia. subst i. unfold cl_adv in E. pose proof (S 0%nat) as S0. pose proof (v_tok 1 tgt st L 0%nat) as T0.
    assert (Np : forall v, holds (cth st 0%nat) v \/ ms st v <> Prog).
    { intros v. destruct (ms st v) eqn:Em; try (right; discriminate). destruct (v_prog 1 tgt st L v Em) as [j Hj]. destruct (Nat.eq_dec j 0) as [->|]; [left; exact Hj|]. rewrite Idl in Hj by lia. destruct Hj; discriminate. }
    assert (Fin : forall st1 c, cth st1 = cth st -> straight (ms st1) c -> forall j, straight (ms (goto st1 0 c)) (cth (goto st1 0 c) j)).
    { intros st1 c E1 Sc j. cbn [goto ms cth]. rewrite E1. unfold upd. destruct (Nat.eqb_spec j 0) as [->|]; [exact Sc|]. rewrite Idl by lia. reflexivity. }
    destruct (cth st 0%nat) as [|u v|u v|u v|u v|u v|u v|u r k|u r k|u r k|u v r|u v cur sm|u v cur sm|u v|u v|u|u] eqn:Et; try discriminate; cbn [straight tok] in S0, T0; try (destruct S0; fail).
    + injection E as <-. apply Fin; [reflexivity|]. destruct (_ <=? _); reflexivity.
    + destruct (mstate_eqb _ _); injection E as <-; apply Fin; reflexivity.
    + injection E as <-. apply Fin; reflexivity.
    + injection E as <-. apply Fin; [reflexivity|]. destruct (ms st v) eqn:Ev; cbn; auto. destruct (Np v) as [[Hh|Hh]|Hh]; [|discriminate|congruence]. cbn in Hh. injection Hh as ->. destruct T0 as [(T0 & _) _]. congruence.
    + injection E as <-. apply Fin; reflexivity.
    + rewrite S0 in E. cbn [mstate_eqb] in E. injection E as <-. apply Fin; reflexivity.
    + injection E as <-. apply Fin; [reflexivity|]. cbn in S0. destruct (_ && _); [exact S0|]. destruct k; [reflexivity|reflexivity|discriminate].
    + injection E as <-. apply Fin; [reflexivity|]. exact S0.
    + injection E as <-. apply Fin; [reflexivity|]. destruct k; [reflexivity|reflexivity|discriminate].
    + injection E as <-. apply Fin; [reflexivity|]. destruct r; [discriminate|reflexivity].
    + injection E as <-. apply Fin; reflexivity.
    + injection E as <-. apply Fin; reflexivity.
Qed.
Lemma one_thread_never_resolves nodes w com maxw l : never_resolves nodes w com maxw 1 l.
Proof.
  intros l1 l2 st i _ E. enough (X : (exists tgt, live_inv 1 tgt st) /\ forall i, straight (ms st) (cth st i)).
  { destruct X as [_ X]. specialize (X i). destruct (cth st i); cbn in *; try reflexivity; try exact X; destruct X. }
  apply (cl_run_inv nodes w com maxw 1 (fun st => (exists tgt, live_inv 1 tgt st) /\ forall i, straight (ms st) (cth st i))) with (l := l1) (st := cl_init w); [|split; [exists (fun _ => None); apply live_init|intros j; reflexivity]|exact E].
  intros s a s' [[tgt L] S] Es. split; [apply (live_step nodes w com maxw 1 tgt s a s' L Es)|apply (straight_step nodes w com maxw tgt s a s' L S Es)].
Qed.
Corollary C58_sequential_clustering_exact nodes w com maxw l st : NoDup nodes -> cl_run nodes w com maxw 1 (cl_init w) l = Some st -> cl_done 1 st ->
  (forall x, In x nodes -> cid st (cid st x) = cid st x) /\
  (forall r, In r nodes -> cid st r = r -> cw st r = coarse_weight nodes w st r) /\
  Z.of_nat (length (nodup Nat.eq_dec (map (cid st) nodes))) = Z.of_nat (length nodes) - cn st.
Proof. intros ND. apply C58_clustering_exact; [exact ND|apply one_thread_never_resolves]. Qed.

(** ** Refutations: what the resolution of cyclic dependencies breaks *)
Definition adv (i k : nat) : list clabel := repeat (CAdv i true) k.
Definition one (_ : nat) : Z := 1.
Definition all0 (_ : nat) : nat := 0%nat.
Definition result (N n : nat) (o : option cluster_st) : option (list nat * list Z * Z * list cpc) :=
  match o with Some st => Some (map (cid st) (seq 0 N), map (cw st) (seq 0 N), cn st, map (cth st) (seq 0 n)) | None => None end.
(** 1: the thread that resolves the dependency 0 -> 1 -> 0 joins the cluster twice (:438 and then :452): cluster 1 of weight 2 is
    recorded with weight 3 and both nodes are counted as contracted: 0 coarse nodes are reported. *)
Definition run2 : list clabel := [CBegin 0 0 1; CBegin 1 1 0] ++ adv 0 3 ++ adv 1 3 ++ adv 0 1 ++ adv 1 1 ++ adv 0 15 ++ adv 1 7.
Theorem C58_refuted_double_join : result 2 2 (cl_run [0;1]%nat one all0 10 2 (cl_init one) run2) = Some ([1;1]%nat, [1;3], 2, [CIdle; CIdle]).
Proof. vm_compute. reflexivity. Qed.
(** 2: the other thread reads the matching state only after the resolution: it joins node 1 to itself; three of two nodes are
    counted as contracted and the number of nodes, an unsigned difference, wraps around. *)
Definition run2' : list clabel := [CBegin 0 0 1; CBegin 1 1 0] ++ adv 0 3 ++ adv 1 3 ++ adv 0 16 ++ adv 1 7.
Theorem C58_refuted_self_join : result 2 2 (cl_run [0;1]%nat one all0 10 2 (cl_init one) run2') = Some ([1;1]%nat, [1;4], 3, [CIdle; CIdle]).
Proof. vm_compute. reflexivity. Qed.
(** 3: three threads: node 0 points to node 1, which is not a representative but points to node 2: "each cluster has a unique
    representative" (:342-346) fails. *)
Definition w3 (x : nat) : Z := if Nat.eqb x 2 then 2 else 1.
Definition run3 : list clabel := [CBegin 0 0 1; CBegin 1 1 2; CBegin 2 2 0] ++ adv 0 3 ++ adv 1 3 ++ adv 2 4 ++ adv 0 17 ++ adv 2 9 ++ adv 1 7.
Theorem C58_refuted_representative : result 3 3 (cl_run [0;1;2]%nat w3 all0 4 3 (cl_init w3) run3) = Some ([1;2;2]%nat, [1;3;3], 3, [CIdle; CIdle; CIdle]).
Proof. vm_compute. reflexivity. Qed.
(** 4: two threads exceed the limit 3 by joining node 0 and node 1 to the cluster {2, 3}; the bound of C57 is attained. *)
Definition run4 : list clabel := [CBegin 0 2 3] ++ adv 0 11 ++ [CBegin 0 0 2; CBegin 1 1 2] ++ adv 0 6 ++ adv 1 6 ++ adv 0 4 ++ adv 1 4.
Theorem C57_refuted_exact_limit : result 4 2 (cl_run [0;1;2;3]%nat one all0 3 2 (cl_init one) run4) = Some ([3;3;3;3]%nat, [1;1;1;4], 3, [CIdle; CIdle]).
Proof. vm_compute. reflexivity. Qed.
(** The hypotheses of C58 are met with several threads: run4 resolves no cycle. *)
Lemma prefixes {A} (l l1 l2 : list A) : l = l1 ++ l2 -> In l1 (map (fun j => firstn j l) (seq 0 (S (length l)))).
Proof.
  intros ->. apply in_map_iff. exists (length l1). split; [rewrite firstn_app, firstn_all, Nat.sub_diag; cbn; apply app_nil_r|]. apply in_seq. rewrite app_length. lia.
Qed.
Lemma ex_never_resolves : never_resolves [0;1;2;3]%nat one all0 3 2 run4.
Proof.
  intros l1 l2 st i El Es. destruct (lt_dec i 2) as [Li|Gi].
  - pose proof (prefixes _ _ _ El) as Hin. assert (V : forallb (fun l => match cl_run [0;1;2;3]%nat one all0 3 2 (cl_init one) l with Some st => negb (resolving (cth st 0)) && negb (resolving (cth st 1)) | None => true end)
      (map (fun j => firstn j run4) (seq 0 (S (length run4)))) = true) by (vm_compute; reflexivity).
    rewrite forallb_forall in V. specialize (V l1 Hin). cbv beta in V. rewrite Es in V. apply andb_true_iff in V. destruct V as [V0 V1]. apply negb_true_iff in V0, V1.
    destruct i as [|[|i]]; [exact V0|exact V1|lia].
  - destruct (live_reachable [0;1;2;3]%nat one all0 3 2 l1 st Es) as [tgt L]. rewrite (v_idle 2 tgt st L i) by lia. reflexivity.
Qed.
Example ex_C58 : exists st, cl_run [0;1;2;3]%nat one all0 3 2 (cl_init one) run4 = Some st /\ cl_done 2 st /\
  (forall x, In x [0;1;2;3]%nat -> cid st (cid st x) = cid st x) /\ cw st 3%nat = coarse_weight [0;1;2;3]%nat one st 3.
Proof.
  destruct (cl_run [0;1;2;3]%nat one all0 3 2 (cl_init one) run4) as [st|] eqn:E; [|exfalso; pose proof C57_refuted_exact_limit as X; rewrite E in X; discriminate]. exists st. split; [reflexivity|].
  pose proof C57_refuted_exact_limit as X. rewrite E in X. cbn [result] in X. injection X as X1 X2 X3 X4 X5 X6 X7 X8 X9 X10 X11.
  assert (Dn : cl_done 2 st) by (intros i Hi; destruct i as [|[|i]]; [assumption|assumption|lia]). split; [exact Dn|].
  assert (ND : NoDup [0;1;2;3]%nat) by (repeat constructor; cbn; intuition lia). destruct (C58_clustering_exact _ _ _ _ _ run4 st ND ex_never_resolves E Dn) as (A & B & _). split; [exact A|]. apply B; [cbn; auto|assumption].
Qed.
(** C56 has instances: one thread that keeps calling matchVertices(0, 1) with a limit no pair meets. *)
Definition ex_sg (t : nat) : clabel := if Nat.even t then CBegin 0 0 1 else CAdv 0 true.
Fixpoint ex_St (t : nat) : cluster_st := match t with O => cl_init one | S t' => match cl_step [0;1]%nat one all0 1 1 (ex_St t') (ex_sg t') with Some s => s | None => ex_St t' end end.
Lemma ex_core (st : cluster_st) (b : bool) : cw st 1%nat = 1 -> cth st 0%nat = (if b then CIdle else CWeight 0 1) ->
  exists st', cl_step [0;1]%nat one all0 1 1 st (if b then CBegin 0 0 1 else CAdv 0 true) = Some st' /\ cw st' 1%nat = 1 /\ cth st' 0%nat = (if negb b then CIdle else CWeight 0 1).
Proof.
  intros A B. destruct b; cbn [cl_step negb].
  - rewrite B. eexists. split; [reflexivity|]. split; [exact A|reflexivity].
  - unfold cl_adv. rewrite B. cbn [Nat.ltb Nat.leb]. rewrite A. eexists. split; [reflexivity|]. split; [exact A|reflexivity].
Qed.
Lemma ex_St_pc : forall t, (cw (ex_St t) 1%nat = 1 /\ cth (ex_St t) 0%nat = (if Nat.even t then CIdle else CWeight 0 1)) /\ cl_step [0;1]%nat one all0 1 1 (ex_St t) (ex_sg t) = Some (ex_St (S t)).
Proof.
  assert (X : forall t, cw (ex_St t) 1%nat = 1 /\ cth (ex_St t) 0%nat = (if Nat.even t then CIdle else CWeight 0 1)).
  { induction t as [|t [A B]]; [vm_compute; auto|]. destruct (ex_core (ex_St t) (Nat.even t) A B) as (st' & E & C & D). rewrite Nat.even_succ, <- Nat.negb_even. cbn [ex_St]. unfold ex_sg. rewrite E. auto. }
  intros t. split; [apply X|]. destruct (X t) as [A B]. destruct (ex_core (ex_St t) (Nat.even t) A B) as (st' & E & _ & _). cbn [ex_St]. unfold ex_sg. rewrite E. reflexivity.
Qed.
Example ex_C56 : execution [0;1]%nat one all0 1 1 ex_St ex_sg /\ fair 1 ex_St ex_sg.
Proof.
  split; [split; [exists []; reflexivity|intros t; apply ex_St_pc]|]. intros i t Hi. assert (i = 0%nat) by lia. subst i. destruct (Nat.even t) eqn:Ev; [exists t|exists (S t)]; (split; [lia|left]); destruct (ex_St_pc t) as ((_ & X) & _), (ex_St_pc (S t)) as ((_ & Y) & _).
  - rewrite X, Ev. reflexivity.
  - rewrite Y, Nat.even_succ, <- Nat.negb_even, Ev. reflexivity.
Qed.
