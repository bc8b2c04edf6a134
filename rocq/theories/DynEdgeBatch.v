(** Proofs about the pins of one hyperedge: one batch of uncontractions. *)
From Coq Require Import List Arith Lia Bool Permutation Sorted.
From Verif Require Import Base INA INARep INAOps2 DynEdge DynEdgeSpec DynEdgeThms.
Import ListNotations.
Local Open Scope nat_scope.

(** ** The image of the representatives *)
Lemma reps_snoc ops o x : reps (ops ++ [o]) x = if reps ops x =? o_v o then o_u o else reps ops x.
Proof. unfold reps. rewrite fold_left_app. reflexivity. Qed.

Definition legal0 (P0 : list nat) (ops : list eop) : Prop :=
  forall l1 o l2, ops = l1 ++ o :: l2 ->
    o_u o <> o_v o /\ ~ In (o_u o) (map o_v l1) /\ ~ In (o_v o) (map o_v l1) /\ (In (o_v o) P0 \/ In (o_v o) (map o_u l1)).

Lemma image_spec P0 ops : legal0 P0 ops -> forall x,
  In x (map (reps ops) P0) <-> (In x P0 \/ In x (map o_u ops)) /\ ~ In x (map o_v ops).
Proof.
  induction ops as [|o ops IH] using rev_ind; intros L x.
  - cbn. rewrite map_ext with (g := fun y => y) by reflexivity. rewrite map_id. tauto.
  - assert (L' : legal0 P0 ops) by (intros a o' c E; apply (L a o' (c ++ [o])); rewrite E, <- app_assoc; reflexivity).
    specialize (IH L'). destruct (L ops o [] eq_refl) as (N & Hu & Hv & Hv2).
    assert (Hi : In (o_v o) (map (reps ops) P0)) by (apply IH; tauto).
    assert (S : In x (map (reps (ops ++ [o])) P0) <-> (In x (map (reps ops) P0) /\ x <> o_v o) \/ x = o_u o).
    { split.
      - intros H. apply in_map_iff in H. destruct H as (y & E & Hy). rewrite reps_snoc in E.
        destruct (Nat.eqb_spec (reps ops y) (o_v o)) as [X|X]; [right; auto|]. left. subst x. split; [apply in_map; exact Hy|exact X].
      - intros [[H X]| ->].
        + apply in_map_iff in H. destruct H as (y & E & Hy). apply in_map_iff. exists y. split; [|exact Hy].
          rewrite reps_snoc. destruct (Nat.eqb_spec (reps ops y) (o_v o)); congruence.
        + apply in_map_iff in Hi. destruct Hi as (y & E & Hy). apply in_map_iff. exists y. split; [|exact Hy].
          rewrite reps_snoc, E, Nat.eqb_refl. reflexivity. }
    rewrite S, IH, !map_app, !in_app_iff. cbn. split.
    + intros [H| ->]; [intuition|]. split; [tauto|]. intros [X|[X|[]]]; [tauto|congruence].
    + intros [H1 H2]. destruct (Nat.eq_dec x (o_u o)) as [E|E]; [tauto|]. left. intuition congruence.
Qed.

Lemma filter_split {A} (f : A -> bool) (l l1 l2 : list A) o : filter f l = l1 ++ o :: l2 ->
  exists a c, l = a ++ o :: c /\ filter f a = l1 /\ filter f c = l2 /\ f o = true.
Proof.
  revert l1. induction l as [|x l IH]; intros l1 E; cbn in E.
  - destruct l1; discriminate.
  - destruct (f x) eqn:F.
    + destruct l1 as [|y l1]; cbn in E; injection E as <- E.
      * exists [], l. auto.
      * destruct (IH _ E) as (a & c & -> & E1 & E2 & Fo). exists (x :: a), c. cbn. rewrite F, E1. auto.
    + destruct (IH _ E) as (a & c & -> & E1 & E2 & Fo). exists (x :: a), c. cbn. rewrite F. auto.
Qed.

(** ** Positions *)
Lemma findpos_spec n u arr : n <= length arr -> In u (firstn n arr) ->
  exists l1 l2, arr = l1 ++ u :: l2 /\ findpos n u arr = Some (length l1) /\ length l1 < n.
Proof.
  induction n as [|n IH]; intros Hl Hi; [destruct Hi|]. cbn [findpos].
  destruct (Nat.eqb_spec (nth n arr 0) u) as [E|E].
  - destruct (nth_split arr 0 (n:=n)) as (l1 & l2 & Ea & L); [lia|]. rewrite E in Ea. exists l1, l2. rewrite L. auto.
  - destruct IH as (l1 & l2 & Ea & F & L); [lia| |exists l1, l2; auto].
    destruct (nth_split arr 0 (n:=n)) as (a & c & Ea & L); [lia|].
    rewrite Ea in Hi. rewrite firstn_app, L, firstn_all2 in Hi by lia. replace (S n - n) with 1 in Hi by lia.
    rewrite Ea. rewrite <- L at 1. rewrite firstn_app_len. apply in_app_or in Hi.
    destruct Hi as [Hi|[Hi|[]]]; [exact Hi|congruence].
Qed.

Lemma counts_app part l1 l2 blk : counts part (l1 ++ l2) blk = counts part l1 blk + counts part l2 blk.
Proof. unfold counts. rewrite filter_app, app_length. reflexivity. Qed.
Lemma counts_perm part l1 l2 blk : Permutation l1 l2 -> counts part l1 blk = counts part l2 blk.
Proof.
  intros P. induction P as [|x l l' P IH|x y l|l l' l'' P1 IH1 P2 IH2]; unfold counts in *; cbn; auto.
  - destruct (part x =? blk); cbn; auto.
  - destruct (part x =? blk), (part y =? blk); reflexivity.
  - congruence.
Qed.
Lemma counts_ext part part' l blk : (forall x, In x l -> part x = part' x) -> counts part l blk = counts part' l blk.
Proof.
  intros H. unfold counts. f_equal. apply filter_ext_in. intros x Hx. rewrite H by exact Hx. reflexivity.
Qed.
Lemma counts_pos part l blk : 0 < counts part l blk <-> exists x, In x l /\ part x = blk.
Proof.
  unfold counts. split.
  - intros H. destruct (filter (fun x => part x =? blk) l) as [|x r] eqn:E; [cbn in H; lia|].
    assert (Hx : In x (filter (fun x => part x =? blk) l)) by (rewrite E; left; reflexivity).
    apply filter_In in Hx. destruct Hx as [Hx Hb]. apply Nat.eqb_eq in Hb. exists x. auto.
  - intros (x & Hx & Hb). assert (In x (filter (fun x => part x =? blk) l)) by (apply filter_In; rewrite Hb, Nat.eqb_refl; auto).
    destruct (filter (fun x => part x =? blk) l); [contradiction|cbn; lia].
Qed.

(** ** One batch *)
Definition nonsh (os : list eop) := filter (fun o => negb (o_sh o)) os.
Definition lg (o : eop) := (o_sh o, o_u o, o_v o).
Definition evlg (x : ev) := (ev_sh x, ev_u x, ev_v x).

Lemma perm_two {A} (a l f : list A) u v :
  Permutation ((a ++ [u]) ++ l ++ v :: f) (v :: (a ++ l ++ u :: f)).
Proof.
  rewrite <- app_assoc. cbn [app]. transitivity (u :: v :: (a ++ l) ++ f).
  - transitivity (u :: a ++ l ++ v :: f); [symmetry; apply Permutation_middle|].
    apply perm_skip. rewrite app_assoc. symmetry. apply Permutation_middle.
  - transitivity (v :: u :: (a ++ l) ++ f); [apply perm_swap|]. apply perm_skip.
    rewrite (app_assoc a l (u :: f)). apply Permutation_middle.
Qed.

Section Batch.
Variables (rank : nat -> nat) (b : nat) (par part : nat -> nat).
Variables (V0 lead rest : list nat) (log0 : list ev).
Hypothesis Hlead : forall x, In x lead -> rank x = b.
Hypothesis Hrest : match rest with [] => True | y :: _ => rank y <> b end.
Hypothesis Hpp : forall x, In x lead -> part (par x) = part x.

(** [ds]: tasks done, [rd]/[rr]: pins restored / to restore *)
Record binv (ds : list eop) (rd rr : list nat) (s : pst) (r : rst) : Prop := {
  bv_lead : lead = rd ++ rr;
  bv_size : e_size (p_edge s) <= length (e_arr (p_edge s));
  bv_r : match r with RIdle => existsb o_sh ds = false /\ rd = [] | RRun => existsb o_sh ds = true
              | RDone => existsb o_sh ds = true /\ rr = [] end;
  bv_perm : Permutation (map o_u (nonsh ds) ++ valid (p_edge s)) (map o_v (nonsh ds) ++ V0 ++ rd);
  bv_inv : invalid (p_edge s) = rr ++ rest;
  bv_pc : forall blk, p_pc s blk = counts part (valid (p_edge s)) blk;
  bv_log : exists L, p_log s = log0 ++ L /\
             Permutation (map evlg L) (map lg (nonsh ds) ++ map (fun x => (true, par x, x)) rd) }.

Lemma nonsh_snoc ds o : nonsh (ds ++ [o]) = nonsh ds ++ (if o_sh o then [] else [o]).
Proof. unfold nonsh. rewrite filter_app. cbn. destruct (o_sh o); reflexivity. Qed.

Lemma nth_error_invalid e : e_size e <= length (e_arr e) ->
  nth_error (e_arr e) (e_size e) = match invalid e with [] => None | x :: _ => Some x end.
Proof.
  intros H. assert (E : e_arr e = valid e ++ invalid e) by (symmetry; apply firstn_skipn).
  assert (L : length (valid e) = e_size e) by (unfold valid; apply firstn_length_le; exact H).
  rewrite E at 1. rewrite nth_error_app2 by lia. rewrite L, Nat.sub_diag. destruct (invalid e); reflexivity.
Qed.

Lemma restore_edge s pin l : e_size (p_edge s) <= length (e_arr (p_edge s)) -> invalid (p_edge s) = pin :: l ->
  let e' := mkEdge (e_arr (p_edge s)) (S (e_size (p_edge s))) in
  valid e' = valid (p_edge s) ++ [pin] /\ invalid e' = l /\ e_size e' <= length (e_arr e').
Proof.
  intros H Ei. cbv zeta. assert (Ea : e_arr (p_edge s) = (valid (p_edge s) ++ [pin]) ++ l).
  { rewrite <- app_assoc. cbn [app]. rewrite <- Ei. symmetry. apply firstn_skipn. }
  assert (Ln : S (e_size (p_edge s)) = length (valid (p_edge s) ++ [pin])).
  { rewrite app_length. unfold valid. rewrite firstn_length_le by exact H. cbn. lia. }
  set (V := valid (p_edge s)) in *. rewrite Ea. rewrite valid_mk, invalid_mk by exact Ln. split; [reflexivity|]. split; [reflexivity|].
  cbn [e_size e_arr]. rewrite Ln, (app_length _ l). lia.
Qed.

Lemma replace_edge s o : e_size (p_edge s) <= length (e_arr (p_edge s)) -> In (o_u o) (valid (p_edge s)) ->
  exists l1 f2, valid (p_edge s) = l1 ++ o_u o :: f2 /\ valid (p_edge (replace_one s o)) = l1 ++ o_v o :: f2 /\
    invalid (p_edge (replace_one s o)) = invalid (p_edge s) /\
    e_size (p_edge (replace_one s o)) <= length (e_arr (p_edge (replace_one s o))).
Proof.
  intros Bs Huv. unfold replace_one. cbn [p_edge].
  destruct (findpos_spec _ _ _ Bs Huv) as (l1 & l2 & Ea & F & Hlt). rewrite F.
  assert (Ln : e_size (p_edge s) = length l1 + S (e_size (p_edge s) - length l1 - 1)) by lia.
  set (z := e_size (p_edge s) - length l1 - 1) in *.
  assert (Hz : z <= length l2) by (rewrite Ea, app_length in Bs; cbn in Bs; lia).
  assert (El2 : l2 = firstn z l2 ++ skipn z l2) by (symmetry; apply firstn_skipn).
  set (f2 := firstn z l2) in *. set (k2 := skipn z l2) in *.
  assert (Lf : length f2 = z) by (apply firstn_length_le; exact Hz).
  assert (Ee : p_edge s = mkEdge ((l1 ++ o_u o :: f2) ++ k2) (e_size (p_edge s))).
  { destruct (p_edge s) as [a y]. cbn [e_arr e_size] in *. rewrite Ea, El2, <- app_assoc. reflexivity. }
  assert (Ev : valid (p_edge s) = l1 ++ o_u o :: f2) by (rewrite Ee; apply valid_mk; rewrite app_length; cbn [length]; lia).
  assert (Ei : invalid (p_edge s) = k2) by (rewrite Ee; apply invalid_mk; rewrite app_length; cbn [length]; lia).
  assert (Ee' : mkEdge (set_nth (e_arr (p_edge s)) (length l1) (o_v o)) (e_size (p_edge s))
              = mkEdge ((l1 ++ o_v o :: f2) ++ k2) (e_size (p_edge s))).
  { rewrite Ea, set_nth_app, El2, <- app_assoc. reflexivity. }
  rewrite Ee'. exists l1, f2. split; [exact Ev|]. split; [apply valid_mk; rewrite app_length; cbn [length]; lia|].
  split; [rewrite Ei; apply invalid_mk; rewrite app_length; cbn [length]; lia|].
  cbn [e_arr e_size]. rewrite !app_length. cbn [length]. lia.
Qed.

Section Steps.
Variable os : list eop.
Hypothesis Hos : forall o, In o os -> o_sh o = false -> In (o_u o) V0 /\ part (o_u o) = part (o_v o).
Hypothesis Hnd : NoDup (map o_u (nonsh os)).

Lemma nonsh_perm l1 l2 : Permutation l1 l2 -> Permutation (nonsh l1) (nonsh l2).
Proof.
  intros P. unfold nonsh. induction P as [|x l l' P IH|x y l|l l' l'' P1 IH1 P2 IH2]; cbn.
  - constructor.
  - destruct (o_sh x); cbn; [exact IH|constructor; exact IH].
  - destruct (o_sh x), (o_sh y); cbn; try apply Permutation_refl. apply perm_swap.
  - exact (Permutation_trans IH1 IH2).
Qed.

(** the replaced node is still there *)
Lemma todo_u ds rd rr s r o l1 l2 : binv ds rd rr s r -> Permutation os (ds ++ l1 ++ o :: l2) -> o_sh o = false ->
  In (o_u o) (valid (p_edge s)) /\ part (o_u o) = part (o_v o).
Proof.
  intros B P Es. assert (Hi : In o os) by (apply (Permutation_in _ (Permutation_sym P)); rewrite !in_app_iff; cbn; auto).
  destruct (Hos o Hi Es) as [H1 H2]. split; [|exact H2].
  assert (X : In (o_u o) (map o_u (nonsh ds) ++ valid (p_edge s))).
  { apply (Permutation_in _ (Permutation_sym (bv_perm _ _ _ _ _ B))). rewrite !in_app_iff. auto. }
  apply in_app_or in X. destruct X as [X|X]; [|exact X]. exfalso.
  assert (ND : NoDup (map o_u (nonsh (ds ++ l1 ++ o :: l2)))).
  { eapply Permutation_NoDup; [|exact Hnd]. apply Permutation_map. apply nonsh_perm. exact P. }
  unfold nonsh in ND, X. rewrite !filter_app in ND. cbn [filter] in ND. rewrite Es in ND. cbn [negb] in ND. rewrite !map_app in ND.
  apply (NoDup_app_disj _ _ ND (o_u o) X). apply in_or_app. right. left. reflexivity.
Qed.

Lemma step_inv ds rd rr s todo r s' todo' r' : binv ds rd rr s r -> Permutation os (ds ++ todo) ->
  bstep rank b par part (s, todo, r) (s', todo', r') ->
  exists ds' rd' rr', binv ds' rd' rr' s' r' /\ Permutation os (ds' ++ todo').
Proof.
  intros B P S. remember (s, todo, r) as X eqn:EX. remember (s', todo', r') as Y eqn:EY.
  assert (PM : forall l1 o l2, Permutation os (ds ++ l1 ++ o :: l2) -> Permutation os ((ds ++ [o]) ++ l1 ++ l2)).
  { intros l1 o l2 H. rewrite H, <- app_assoc. apply Permutation_app_head. cbn [app]. symmetry. apply Permutation_middle. }
  destruct S as [s0 l1 o l2 Es|s0 l1 o l2 r0 Es Hr|s0 os0 pin Hn Hr|s0 os0 Hn|s0 l1 o l2 r0 Es];
    injection EX as -> <- <-; injection EY as <- <- <-.
  - exists (ds ++ [o]), rd, rr. split; [|apply PM; exact P].
    destruct B as [B1 B2 B3 B4 B5 B6 B7]. constructor; auto.
    + rewrite existsb_app. cbn. rewrite Es. apply orb_true_r.
    + rewrite nonsh_snoc, Es, app_nil_r. exact B4.
    + rewrite nonsh_snoc, Es, app_nil_r. exact B7.
  - exists (ds ++ [o]), rd, rr. split; [|apply PM; exact P].
    destruct B as [B1 B2 B3 B4 B5 B6 B7].
    assert (Ex : existsb o_sh (ds ++ [o]) = true) by (rewrite existsb_app; cbn; rewrite Es; apply orb_true_r).
    constructor; auto.
    + destruct r0; [congruence|exact Ex|]. split; [exact Ex|apply B3].
    + rewrite nonsh_snoc, Es, app_nil_r. exact B4.
    + rewrite nonsh_snoc, Es, app_nil_r. exact B7.
  - destruct B as [B1 B2 B3 B4 B5 B6 B7]. rewrite (nth_error_invalid _ B2), B5 in Hn.
    destruct rr as [|x rr].
    { exfalso. cbn in Hn. destruct rest as [|y rest']; [discriminate|]. injection Hn as ->. contradiction. }
    cbn in Hn. injection Hn as ->. cbn [app] in B5.
    destruct (restore_edge s pin (rr ++ rest) B2 B5) as (Ev & Ei & Hl). cbv zeta in *.
    exists ds, (rd ++ [pin]), rr. split; [|exact P].
    assert (Hpin : In pin lead) by (rewrite B1; apply in_or_app; right; left; reflexivity).
    constructor; unfold restore_one; cbn [p_edge p_pc p_log].
    + rewrite B1, <- app_assoc. reflexivity.
    + exact Hl.
    + exact B3.
    + rewrite Ev, !app_assoc. apply Permutation_app_tail. rewrite <- app_assoc. exact B4.
    + exact Ei.
    + intros blk. rewrite Ev, counts_app, <- B6. unfold upd, counts. cbn [filter].
      rewrite (Hpp _ Hpin). destruct (Nat.eqb_spec blk (part pin)) as [->|N].
      * rewrite Nat.eqb_refl. cbn. lia.
      * destruct (Nat.eqb_spec (part pin) blk); [congruence|]. cbn. lia.
    + destruct B7 as (L & EL & PL). eexists (L ++ [_]). rewrite EL, <- app_assoc. split; [reflexivity|].
      rewrite !map_app, PL, <- app_assoc. apply Permutation_refl.
  - exists ds, rd, rr. split; [|exact P]. destruct B as [B1 B2 B3 B4 B5 B6 B7]. constructor; auto.
    split; [exact B3|]. destruct rr as [|x rr]; [reflexivity|exfalso].
    apply (Hn x); [rewrite (nth_error_invalid _ B2), B5; reflexivity|]. apply Hlead. rewrite B1. apply in_or_app. right. left. reflexivity.
  - destruct (todo_u ds rd rr s r0 o l1 l2 B P Es) as [Hu Epart].
    exists (ds ++ [o]), rd, rr. split; [|apply PM; exact P]. destruct B as [B1 B2 B3 B4 B5 B6 B7].
    destruct (replace_edge s o B2 Hu) as (a & f & Ev & Ev' & Ei' & Hl).
    assert (En : nonsh (ds ++ [o]) = nonsh ds ++ [o]) by (rewrite nonsh_snoc, Es; reflexivity).
    constructor; rewrite ?En, ?Ev', ?Ei'; auto.
    + rewrite existsb_app. cbn [existsb]. rewrite Es, !orb_false_r. exact B3.
    + rewrite Ev in B4. rewrite !map_app. cbn [map].
      transitivity (o_v o :: (map o_u (nonsh ds) ++ a ++ o_u o :: f)).
      * apply perm_two.
      * rewrite B4, <- !app_assoc. cbn [app]. apply Permutation_middle.
    + intros blk. unfold replace_one. cbn [p_pc]. rewrite B6, Ev, !counts_app. f_equal. unfold counts. cbn [filter]. rewrite Epart.
      destruct (part (o_v o) =? blk); reflexivity.
    + destruct B7 as (L & EL & PL). unfold replace_one. cbn [p_log]. eexists (L ++ [_]). rewrite EL, <- app_assoc.
      split; [reflexivity|]. rewrite !map_app, PL, <- !app_assoc. apply Permutation_app_head. cbn [map]. unfold lg at 1, evlg.
      cbn [ev_sh ev_u ev_v]. rewrite Es. apply Permutation_app_comm.
Qed.

Lemma steps_inv s s' todo' r' : binv [] [] lead s RIdle -> bsteps rank b par part (s, os, RIdle) (s', todo', r') ->
  exists ds' rd' rr', binv ds' rd' rr' s' r' /\ Permutation os (ds' ++ todo').
Proof.
  intros B S. remember (s, os, RIdle) as X eqn:EX. remember (s', todo', r') as Y eqn:EY.
  revert s' todo' r' EY. induction S as [x|x y z S1 IH S2]; intros s' todo' r' EY; subst.
  - injection EY as <- <- <-. exists [], [], lead. split; [exact B|apply Permutation_refl].
  - destruct y as [[s1 todo1] r1]. destruct (IH eq_refl s1 todo1 r1 eq_refl) as (ds & rd & rr & B1 & P1).
    exact (step_inv ds rd rr s1 todo1 r1 s' todo' r' B1 P1 S2).
Qed.
End Steps.
End Batch.
