(** ParticipationThms.v - C77: every active block pair is scheduled exactly once per round. *)
From Coq Require Import Sorted.
From Verif Require Import Base Participation.

Definition touch (p : nat * nat) (b : nat) : bool := Nat.eqb b (fst p) || Nat.eqb b (snd p).
Definition blocks_of_pairs (ts : list (nat * nat)) : list nat := flat_map (fun p => [fst p; snd p]) ts.
Local Notation flat := blocks_of_pairs.

(** *** Sorting *)
Lemma insert_perm lt x l : Permutation (insert lt x l) (x :: l).
Proof. induction l as [|y l IH]; cbn [insert]; [apply Permutation_refl|]. destruct (lt y x); [|apply Permutation_refl]. rewrite IH. apply perm_swap. Qed.
Lemma isort_perm lt l : Permutation (isort lt l) l.
Proof. induction l as [|y l IH]; cbn [isort fold_right]; [constructor|]. fold (isort lt l). rewrite insert_perm, IH. apply Permutation_refl. Qed.
Lemma isort_in lt l x : In x (isort lt l) <-> In x l.
Proof. split; apply Permutation_in; [|symmetry]; apply isort_perm. Qed.

Definition strict_total (lt : nat -> nat -> bool) : Prop :=
  (forall x, lt x x = false) /\ (forall x y z, lt x y = true -> lt y z = true -> lt x z = true) /\ (forall x y, x <> y -> lt x y = true \/ lt y x = true).
Lemma before_total q i : strict_total (before q i).
Proof.
  unfold before. split; [|split].
  - intros x. rewrite !Z.ltb_irrefl, Nat.ltb_irrefl, !andb_false_r. reflexivity.
  - intros x y z. rewrite !orb_true_iff, !andb_true_iff, !orb_true_iff, !andb_true_iff, !Z.ltb_lt, !Z.eqb_eq, !Nat.ltb_lt. lia.
  - intros x y N. rewrite !orb_true_iff, !andb_true_iff, !orb_true_iff, !andb_true_iff, !Z.ltb_lt, !Z.eqb_eq, !Nat.ltb_lt. lia.
Qed.
Lemma more_total pa : strict_total (more pa).
Proof.
  unfold more. split; [|split].
  - intros x. rewrite Z.ltb_irrefl, Nat.ltb_irrefl, andb_false_r. reflexivity.
  - intros x y z. rewrite !orb_true_iff, !andb_true_iff, !Z.ltb_lt, !Z.eqb_eq, !Nat.ltb_lt. lia.
  - intros x y N. rewrite !orb_true_iff, !andb_true_iff, !Z.ltb_lt, !Z.eqb_eq, !Nat.ltb_lt. lia.
Qed.
Lemma isort_sorted lt l : strict_total lt -> NoDup l -> StronglySorted (fun a b => lt a b = true) (isort lt l).
Proof.
  intros (Ir & Tr & To). induction l as [|x l IH]; intros ND; [constructor|]. inversion ND as [|? ? Nx N']; subst. specialize (IH N'). cbn [isort fold_right]. fold (isort lt l).
  assert (Nx' : ~ In x (isort lt l)) by (rewrite isort_in; exact Nx). revert IH Nx'. generalize (isort lt l) as s. clear l ND Nx N'.
  induction s as [|y s IH]; intros S N; cbn [insert]; [constructor; [constructor|constructor]|]. inversion S as [|? ? S' F]; subst.
  destruct (lt y x) eqn:E.
  - constructor; [apply IH; [exact S'|intros X; apply N; right; exact X]|]. rewrite Forall_forall in *. intros z Hz. apply (Permutation_in _ (insert_perm lt x s)) in Hz. destruct Hz as [<-|Hz]; [exact E|auto].
  - constructor; [exact S|]. assert (Lx : lt x y = true) by (destruct (To x y) as [A|A]; [intros ->; apply N; left; reflexivity|exact A|congruence]).
    constructor; [exact Lx|]. rewrite Forall_forall in *. intros z Hz. eapply Tr; eauto.
Qed.
(** Whatever sorting algorithm is used, the result is the one of the model. *)
Lemma sort_unique lt l l' : strict_total lt -> NoDup l -> Permutation l' l -> StronglySorted (fun a b => lt a b = true) l' -> l' = isort lt l.
Proof.
  intros ST ND P S. pose proof (isort_sorted lt l ST ND) as S2. assert (P2 : Permutation l' (isort lt l)) by (rewrite isort_perm; exact P). revert P2 S S2. generalize (isort lt l) as s. clear P ND l.
  destruct ST as (Ir & Tr & To). induction l' as [|x l' IH]; intros s P S1 S2; [apply Permutation_nil in P; congruence|].
  destruct s as [|y s]; [symmetry in P; apply Permutation_nil in P; congruence|]. inversion S1 as [|? ? S1' F1]; subst. inversion S2 as [|? ? S2' F2]; subst. rewrite Forall_forall in F1, F2.
  assert (x = y).
  { assert (Iy : In y (x :: l')) by (apply (Permutation_in _ (Permutation_sym P)); left; reflexivity). assert (Ix : In x (y :: s)) by (apply (Permutation_in _ P); left; reflexivity).
    destruct Iy as [E|Iy]; [exact E|]. destruct Ix as [E|Ix]; [congruence|]. specialize (F1 y Iy). specialize (F2 x Ix). pose proof (Tr _ _ _ F1 F2) as X. rewrite Ir in X. discriminate. }
  subst y. f_equal. apply IH; [eapply Permutation_cons_inv; exact P|assumption|assumption].
Qed.

Section Thms.
Variables (k : nat) (ssc sub inp : bool).
Local Notation elig := (isEligible ssc sub inp).

(** *** The pairs of a round *)
Lemma in_all_pairs i j : In (i, j) (all_pairs k) <-> (i < j < k)%nat.
Proof.
  unfold all_pairs. rewrite in_flat_map. split.
  - intros (a & Ia & Ip). apply in_map_iff in Ip. destruct Ip as (b & E & Ib). injection E as <- <-. apply in_seq in Ia, Ib. lia.
  - intros L. exists i. split; [apply in_seq; lia|]. apply in_map_iff. exists j. split; [reflexivity|]. apply in_seq. lia.
Qed.
Lemma nodup_all_pairs : NoDup (all_pairs k).
Proof.
  unfold all_pairs. assert (G : forall l, NoDup l -> NoDup (flat_map (fun i => map (fun j => (i, j)) (seq (S i) (k - S i))) l)).
  { induction l as [|i l IH]; intros N; cbn [flat_map]; [constructor|]. inversion N as [|? ? Ni N']; subst. specialize (IH N').
    assert (D : forall p, In p (map (fun j => (i, j)) (seq (S i) (k - S i))) -> ~ In p (flat_map (fun i => map (fun j => (i, j)) (seq (S i) (k - S i))) l)).
    { intros p Hp Hq. apply in_map_iff in Hp. destruct Hp as (b & <- & _). apply in_flat_map in Hq. destruct Hq as (a & Ia & Iq). apply in_map_iff in Iq. destruct Iq as (c & E & _). injection E as <- _. contradiction. }
    assert (N1 : NoDup (map (fun j => (i, j)) (seq (S i) (k - S i)))). { assert (X : forall s, NoDup s -> NoDup (map (fun j : nat => (i, j)) s)). { induction s as [|a s IHs]; intros Ns; cbn; [constructor|]. inversion Ns; subst. constructor; [|auto]. intros Y. apply in_map_iff in Y. destruct Y as (c & E & Ic). injection E as ->. contradiction. } apply X. apply seq_NoDup. }
    revert N1 D. generalize (map (fun j : nat => (i, j)) (seq (S i) (k - S i))) as u. induction u as [|a u IHu]; intros N1 D; cbn [app]; [exact IH|]. inversion N1; subst. constructor.
    - intros X. apply in_app_or in X. destruct X as [X|X]; [contradiction|]. exact (D a (or_introl eq_refl) X).
    - apply IHu; [assumption|]. intros p Hp. apply D. right. exact Hp. }
  apply G. apply seq_NoDup.
Qed.

Definition cnt (A : list (nat * nat)) (proc : nat -> nat -> bool) (b : nat) : Z := sumZ (fun p => Z.b2z (touch p b && negb (proc (fst p) (snd p)))) A.
Record RInv (A : list (nat * nat)) (st : pss) : Prop := {
  r_nodup : NoDup A;
  r_lt : forall i j, In (i, j) A -> (i < j < k)%nat;
  r_parts : forall b, (b < k)%nat -> parts st b = cnt A (processed st) b;
  r_pairs : forall b c, In c (pairs st b) <-> (b <> c /\ In (Nat.min b c, Nat.max b c) A);
  r_proc : forall i j, processed st i j = true -> In (i, j) A }.

Lemma min_max_lt i j : (i < j)%nat -> Nat.min i j = i /\ Nat.max i j = j /\ Nat.min j i = i /\ Nat.max j i = j.
Proof. lia. Qed.
Lemma touch_iff p b : touch p b = true <-> b = fst p \/ b = snd p.
Proof. unfold touch. rewrite orb_true_iff, !Nat.eqb_eq. tauto. Qed.

Definition active_pairs (q : qstats) (act : nat -> bool) (rnd : nat) : list (nat * nat) := filter (fun p => elig q act rnd (fst p) (snd p)) (all_pairs k).
Lemma fold_pairs q act rnd l : (forall i j, In (i, j) l -> (i < j)%nat) -> forall pa pr pa' pr', fold_left (add_pair ssc sub inp q act rnd) l (pa, pr) = (pa', pr') ->
  (forall b, pa' b = pa b + sumZ (fun p => Z.b2z (touch p b)) (filter (fun p => elig q act rnd (fst p) (snd p)) l)) /\
  (forall b c, In c (pr' b) <-> In c (pr b) \/ (b <> c /\ In (Nat.min b c, Nat.max b c) (filter (fun p => elig q act rnd (fst p) (snd p)) l))).
Proof.
  induction l as [|[i j] l IH]; intros Hl pa pr pa' pr' E.
  - cbn in E. injection E as <- <-. split; [intros b; cbn; lia|]. intros b c. cbn. tauto.
  - cbn [fold_left add_pair] in E. assert (Hij : (i < j)%nat) by (apply Hl; left; reflexivity). cbn [filter fst snd].
    assert (Hl' : forall i j, In (i, j) l -> (i < j)%nat) by (intros a b X; apply Hl; right; exact X).
    destruct (elig q act rnd i j) eqn:El; [|apply (IH Hl' _ _ _ _ E)].
    destruct (IH Hl' _ _ _ _ E) as [P1 P2]. split.
    + intros b. rewrite P1. cbn [sumZ]. unfold touch at 2. cbn [fst snd]. unfold upd. rewrite (Nat.eqb_sym b i), (Nat.eqb_sym b j).
      destruct (Nat.eqb_spec i b) as [->|]; destruct (Nat.eqb_spec j b) as [->|]; repeat match goal with |- context [Nat.eqb ?x ?y] => destruct (Nat.eqb_spec x y); try lia end; cbn [orb Z.b2z]; lia.
    + intros b c. rewrite P2. cbn [In]. unfold upd. destruct (min_max_lt i j Hij) as (M1 & M2 & M3 & M4).
      assert (EQ : forall a d, a <> d -> (i, j) = (Nat.min a d, Nat.max a d) <-> (a = i /\ d = j) \/ (a = j /\ d = i)).
      { intros a d Nad. split; [intros X; injection X as X1 X2; lia|]. intros [[-> ->]|[-> ->]]; f_equal; lia. }
      destruct (Nat.eqb_spec b j) as [->|Nbj].
      * destruct (Nat.eqb_spec j i) as [->|Nji]; [lia|]. rewrite in_app_iff. cbn [In]. split.
        -- intros [[X|[<-|[]]]|[X Y]]; [tauto| |tauto]. right. split; [lia|]. left. f_equal; lia.
        -- intros [X|[X [Y|Y]]]; [tauto| |tauto]. apply EQ in Y; [|exact X]. destruct Y as [[-> ->]|[_ ->]]; [lia|]. left. right. left. reflexivity.
      * destruct (Nat.eqb_spec b i) as [->|Nbi]; [rewrite in_app_iff; cbn [In]; split|split].
        -- intros [[X|[<-|[]]]|[X Y]]; [tauto| |tauto]. right. split; [lia|]. left. f_equal; lia.
        -- intros [X|[X [Y|Y]]]; [tauto| |tauto]. apply EQ in Y; [|exact X]. destruct Y as [[_ ->]|[-> _]]; [|lia]. left. right. left. reflexivity.
        -- tauto.
        -- intros [X|[X [Y|Y]]]; [tauto| |tauto]. apply EQ in Y; [|exact X]. destruct Y as [[-> ->]|[-> ->]]; congruence.
Qed.
Lemma active_pairs_in q act rnd i j : In (i, j) (active_pairs q act rnd) <-> (i < j < k)%nat /\ elig q act rnd i j = true.
Proof. unfold active_pairs. rewrite filter_In, in_all_pairs. cbn. tauto. Qed.
Lemma reset_ok q st : let st' := reset_impl k ssc sub inp q st in RInv (active_pairs q (active_next st) (round st)) st' /\ active st' = active_next st /\ round st' = round st /\
  (forall i j, processed st' i j = false) /\ (forall b, active_next st' b = false).
Proof.
  cbv zeta. unfold reset_impl. destruct (fold_left _ _ _) as [pa pr] eqn:E.
  assert (Hl : forall i j, In (i, j) (all_pairs k) -> (i < j)%nat) by (intros i j X; apply in_all_pairs in X; lia).
  destruct (fold_pairs q (active_next st) (round st) (all_pairs k) Hl _ _ _ _ E) as [P1 P2].
  split; [|repeat split; reflexivity]. constructor; cbn [parts pairs processed].
  - apply NoDup_filter. exact nodup_all_pairs.
  - intros i j X. apply active_pairs_in in X. apply X.
  - intros b Hb. rewrite P1. unfold cnt. rewrite Z.add_0_l. apply sumZ_ext. intros p _. rewrite andb_true_r. reflexivity.
  - intros b c. rewrite isort_in, P2. cbn [In]. unfold active_pairs. tauto.
  - discriminate.
Qed.

(** *** The greedy matching *)
Lemma cnt_mark A proc i j b : NoDup A -> In (i, j) A -> proc i j = false -> cnt A (upd2 proc i j true) b = cnt A proc b - Z.b2z (touch (i, j) b).
Proof.
  intros N I Pf. unfold cnt. induction A as [|[a c] A IH]; [destruct I|]. inversion N as [|? ? Na N']; subst. cbn [sumZ fst snd].
  destruct I as [E|I].
  - injection E as -> ->. rewrite upd2_same, Pf. cbn [negb]. rewrite andb_false_r, andb_true_r. cbn [Z.b2z].
    rewrite (sumZ_ext (fun p => Z.b2z (touch p b && negb (upd2 proc i j true (fst p) (snd p)))) (fun p => Z.b2z (touch p b && negb (proc (fst p) (snd p)))) A); [lia|].
    intros [x y] Hxy. cbn [fst snd]. rewrite upd2_eq. destruct (Nat.eqb_spec x i) as [->|]; destruct (Nat.eqb_spec y j) as [->|]; cbn [andb]; try reflexivity. contradiction.
  - rewrite IH by assumption. rewrite upd2_eq. destruct (Nat.eqb_spec a i) as [->|]; destruct (Nat.eqb_spec c j) as [->|]; cbn [andb]; try lia. contradiction.
Qed.
Lemma cnt_pos A proc i j b : In (i, j) A -> proc i j = false -> touch (i, j) b = true -> 0 < cnt A proc b.
Proof.
  intros I Pf Tb. unfold cnt. induction A as [|p A IH]; [destruct I|]. cbn [sumZ]. assert (NN : 0 <= sumZ (fun p => Z.b2z (touch p b && negb (proc (fst p) (snd p)))) A) by (apply sumZ_nonneg; intros x _; destruct (_ && _); cbn; lia).
  destruct I as [->|I]; [cbn [fst snd]; rewrite Pf, Tb; cbn [negb andb Z.b2z]; lia|]. specialize (IH I). destruct (touch p b && _); cbn [Z.b2z]; lia.
Qed.

Record GI (A : list (nat * nat)) (st : pss) (vis : list nat) (sch : nat -> bool) (pa : nat -> Z) (proc : nat -> nat -> bool) (ts : list (nat * nat)) : Prop := {
  g_in : forall i j, In (i, j) ts -> In (i, j) A /\ processed st i j = false;
  g_nd : NoDup (flat ts);
  g_sch : forall b, sch b = true <-> In b (flat ts);
  g_proc : forall i j, proc i j = true <-> (processed st i j = true \/ In (i, j) ts);
  g_pa : forall b, (b < k)%nat -> pa b = cnt A proc b;
  g_vis : forall b c, In b vis -> sch b = false -> b <> c -> In (Nat.min b c, Nat.max b c) A -> proc (Nat.min b c) (Nat.max b c) = false -> sch c = true }.

Lemma flat_app a b : flat (a ++ b) = flat a ++ flat b.
Proof. unfold blocks_of_pairs. apply flat_map_app. Qed.
Lemma in_flat ts i j : In (i, j) ts -> In i (flat ts) /\ In j (flat ts).
Proof. intros I. split; apply in_flat_map; exists (i, j); (split; [exact I|cbn; auto]). Qed.
Lemma flat_in ts b : In b (flat ts) -> exists p, In p ts /\ touch p b = true.
Proof. intros I. apply in_flat_map in I. destruct I as (p & Ip & Ib). exists p. split; [exact Ip|]. apply touch_iff. cbn in Ib. intuition. Qed.

Lemma greedy_ok q st A : RInv A st -> (forall i j, In (i, j) A -> elig q (active st) (round st) i j = true) ->
  forall bs vis sch pa proc ts pa' proc' ts', (forall b, In b bs -> (b < k)%nat) -> (forall i j, In (i, j) A -> processed st i j = false -> (In i vis \/ In i bs) /\ (In j vis \/ In j bs)) ->
  GI A st vis sch pa proc ts -> greedy k ssc sub inp q st bs sch pa proc ts = (pa', proc', ts') ->
  exists vis' sch', GI A st vis' sch' pa' proc' ts' /\ (forall i j, In (i, j) A -> proc' i j = false -> In i (flat ts') \/ In j (flat ts')).
Proof.
  intros R EL. induction bs as [|b0 bs IH]; intros vis sch pa proc ts pa' proc' ts' Hk Hv G E; cbn [greedy] in E.
  - injection E as <- <- <-. exists vis, sch. split; [exact G|]. intros i j I Pf. destruct (sch i) eqn:Si; [left; apply (g_sch _ _ _ _ _ _ _ G); exact Si|right].
    apply (g_sch _ _ _ _ _ _ _ G). destruct (r_lt _ _ R i j I) as [Lij _]. destruct (min_max_lt i j Lij) as (M1 & M2 & _).
    destruct (processed st i j) eqn:Ps; [rewrite (proj2 (g_proc _ _ _ _ _ _ _ G i j) (or_introl Ps)) in Pf; discriminate|].
    destruct (Hv i j I Ps) as [[Vi|[]] _]. apply (g_vis _ _ _ _ _ _ _ G i j Vi Si); [lia|rewrite M1, M2; exact I|rewrite M1, M2; exact Pf].
  - assert (Hk' : forall b, In b bs -> (b < k)%nat) by (intros b Hb; apply Hk; right; exact Hb).
    assert (Hv' : forall i j, In (i, j) A -> processed st i j = false -> (In i (b0 :: vis) \/ In i bs) /\ (In j (b0 :: vis) \/ In j bs)) by (intros i j I Pf; destruct (Hv i j I Pf) as [[X|[X|X]] [Y|[Y|Y]]]; cbn; auto).
    destruct (sch b0) eqn:S0.
    + apply (IH (b0 :: vis) sch pa proc ts pa' proc' ts' Hk' Hv'); [|exact E]. destruct G. constructor; auto. intros b c [<-|Vb]; [congruence|eauto].
    + assert (GG : forall sch1 pa1 proc1 ts1, match find (free ssc sub inp q st sch proc b0) (pairs st b0) with
        | Some b1 => (upd (upd sch b0 true) b1 true, upd (upd pa (Nat.min b0 b1) (pa (Nat.min b0 b1) - 1)) (Nat.max b0 b1) (upd pa (Nat.min b0 b1) (pa (Nat.min b0 b1) - 1) (Nat.max b0 b1) - 1), upd2 proc (Nat.min b0 b1) (Nat.max b0 b1) true, ts ++ [(Nat.min b0 b1, Nat.max b0 b1)])
        | None => (sch, pa, proc, ts) end = (sch1, pa1, proc1, ts1) -> GI A st (b0 :: vis) sch1 pa1 proc1 ts1).
      { intros sch1 pa1 proc1 ts1 E1. destruct (find (free ssc sub inp q st sch proc b0) (pairs st b0)) as [b1|] eqn:F.
        - apply find_some in F. destruct F as [Ib F]. unfold free in F. apply andb_true_iff in F. destruct F as [F1 F]. apply andb_true_iff in F. destruct F as [F2 F3]. apply negb_true_iff in F1, F3.
          apply (r_pairs _ _ R) in Ib. destruct Ib as [Nb Ib]. injection E1 as <- <- <- <-. set (i := Nat.min b0 b1) in *. set (j := Nat.max b0 b1) in *.
          destruct (r_lt _ _ R i j Ib) as [Lij Ljk].
          assert (Ps : processed st i j = false) by (destruct (processed st i j) eqn:X; [rewrite (proj2 (g_proc _ _ _ _ _ _ _ G i j) (or_introl X)) in F3; discriminate|reflexivity]).
          assert (Bij : forall b, In b [i; j] <-> (b = b0 \/ b = b1)) by (intros b; cbn; unfold i, j; lia).
          constructor.
          + intros a c I. apply in_app_or in I. destruct I as [I|[I|[]]]; [exact (g_in _ _ _ _ _ _ _ G a c I)|]. injection I as <- <-. auto.
          + rewrite flat_app. cbn [flat blocks_of_pairs flat_map app fst snd].
            assert (Dj : forall b, In b (flat ts) -> ~ In b [i; j]). { intros b Hb Hc. apply Bij in Hc. apply (g_sch _ _ _ _ _ _ _ G) in Hb. destruct Hc as [->| ->]; congruence. }
            pose proof (g_nd _ _ _ _ _ _ _ G) as ND. revert ND Dj. generalize (flat ts) as u. induction u as [|a u IHu]; intros ND Dj; cbn [app].
            * apply NoDup_cons; [cbn; lia|]. apply NoDup_cons; [cbn; tauto|]. apply NoDup_nil.
            * inversion ND; subst. apply NoDup_cons; [|apply IHu; [assumption|intros b Hb; apply Dj; right; exact Hb]]. intros X. apply in_app_or in X. destruct X as [X|X]; [contradiction|]. exact (Dj a (or_introl eq_refl) X).
          + intros b. rewrite flat_app, in_app_iff. cbn [flat blocks_of_pairs flat_map app fst snd]. rewrite Bij. unfold upd.
            destruct (Nat.eqb_spec b b1) as [->|]; [tauto|]. destruct (Nat.eqb_spec b b0) as [->|]; [tauto|]. rewrite (g_sch _ _ _ _ _ _ _ G b). tauto.
          + intros a c. rewrite upd2_eq, in_app_iff. cbn [In]. destruct (Nat.eqb_spec a i) as [->|]; destruct (Nat.eqb_spec c j) as [->|]; cbn [andb]; try tauto;
              rewrite (g_proc _ _ _ _ _ _ _ G); intuition congruence.
          + intros b Hb. rewrite (cnt_mark A proc i j b (r_nodup _ _ R) Ib F3), <- (g_pa _ _ _ _ _ _ _ G b Hb). unfold touch, upd. cbn [fst snd].
            destruct (Nat.eqb_spec b j) as [Ej|Ej]; destruct (Nat.eqb_spec b i) as [Ei|Ei]; destruct (Nat.eqb_spec j i); try lia; cbn [orb Z.b2z]; subst b; lia || lia.
          + intros b c Vb Sb Nbc Ibc Pbc. unfold upd in *. destruct (Nat.eqb_spec b b1) as [->|N1]; [discriminate Sb|]. destruct (Nat.eqb_spec b b0) as [->|N0]; [discriminate Sb|].
            destruct Vb as [X|Vb]; [congruence|]. destruct (Nat.eqb c b1); [reflexivity|]. destruct (Nat.eqb c b0); [reflexivity|].
            apply (g_vis _ _ _ _ _ _ _ G b c Vb Sb Nbc Ibc). rewrite upd2_eq in Pbc. destruct (_ && _); [discriminate Pbc|exact Pbc].
        - injection E1 as <- <- <- <-. destruct G as [G1 G2 G3 G4 G5 G6]. constructor; auto. intros b c [<-|Vb] Sb Nbc Ibc Pbc; [|eauto].
          destruct (sch c) eqn:Sc; [reflexivity|]. exfalso. assert (Ic : In c (pairs st b0)) by (apply (r_pairs _ _ R); auto).
          pose proof (find_none _ _ F c Ic) as X. unfold free in X. rewrite Sc, Pbc, (EL _ _ Ibc) in X. discriminate X. }
      destruct (match find (free ssc sub inp q st sch proc b0) (pairs st b0) with Some b1 => _ | None => _ end) as [[[sch1 pa1] proc1] ts1] eqn:E1.
      specialize (GG sch1 pa1 proc1 ts1 eq_refl).
      destruct (Nat.eqb_spec (length ts1) (k / 2)) as [El|Nl].
      * injection E as <- <- <-. exists (b0 :: vis), sch1. split; [exact GG|]. intros i j I Pf.
        destruct (in_dec Nat.eq_dec i (flat ts1)) as [Yi|Ni]; [left; exact Yi|]. destruct (in_dec Nat.eq_dec j (flat ts1)) as [Yj|Nj]; [right; exact Yj|]. exfalso.
        destruct (r_lt _ _ R i j I) as [Lij Ljk].
        assert (ND : NoDup (i :: j :: flat ts1)) by (apply NoDup_cons; [intros [X|X]; [lia|contradiction]|]; apply NoDup_cons; [exact Nj|]; exact (g_nd _ _ _ _ _ _ _ GG)).
        assert (IC : incl (i :: j :: flat ts1) (seq 0 k)).
        { intros b [<-|[<-|Hb]]; [apply in_seq; lia|apply in_seq; lia|]. apply flat_in in Hb. destruct Hb as ([a c] & Hp & Tb). destruct (g_in _ _ _ _ _ _ _ GG a c Hp) as [Ia _]. destruct (r_lt _ _ R a c Ia). apply touch_iff in Tb. cbn in Tb. apply in_seq. lia. }
        pose proof (NoDup_incl_length ND IC) as Len. rewrite seq_length in Len. cbn [length] in Len.
        assert (LF : forall l, length (flat l) = (2 * length l)%nat) by (induction l as [|p l IHl]; [reflexivity|]; cbn [flat blocks_of_pairs flat_map app length]; fold (flat l); lia).
        rewrite LF, El in Len. pose proof (Nat.div_mod k 2 ltac:(lia)). pose proof (Nat.mod_upper_bound k 2 ltac:(lia)). lia.
      * apply (IH (b0 :: vis) sch1 pa1 proc1 ts1 pa' proc' ts' Hk' Hv' GG E).
Qed.

Definition same_round (st st' : pss) : Prop := active st' = active st /\ round st' = round st /\ pairs st' = pairs st.
Theorem getNextMatching_ok q st A ts st' : RInv A st -> (forall i j, In (i, j) A -> elig q (active st) (round st) i j = true) ->
  getNextMatching k ssc sub inp q st = (ts, st') ->
  RInv A st' /\ same_round st st' /\ active_next st' = active_next st /\ NoDup (flat ts) /\
  (forall i j, In (i, j) ts -> In (i, j) A /\ processed st i j = false) /\
  (forall i j, processed st' i j = true <-> processed st i j = true \/ In (i, j) ts) /\
  (forall i j, In (i, j) A -> processed st' i j = false -> In i (flat ts) \/ In j (flat ts)) /\
  (ts = [] <-> forall i j, In (i, j) A -> processed st i j = true).
Proof.
  intros R EL E. unfold getNextMatching in E. destruct (greedy _ _ _ _ _ _ _ _ _ _ _) as [[pa proc] ts0] eqn:Eg. injection E as <- <-.
  assert (X1 : forall b, In b (sorted_blocks k (parts st)) -> (b < k)%nat).
  { intros b Hb. unfold sorted_blocks in Hb. rewrite isort_in in Hb. apply filter_In in Hb. destruct Hb as [Hb _]. apply in_seq in Hb. lia. }
  assert (X2 : forall i j, In (i, j) A -> processed st i j = false -> (In i [] \/ In i (sorted_blocks k (parts st))) /\ (In j [] \/ In j (sorted_blocks k (parts st)))).
  { intros i j I Pf. destruct (r_lt _ _ R i j I) as [Lij Ljk]. unfold sorted_blocks. rewrite !isort_in, !filter_In, !in_seq.
    assert (0 < parts st i) by (rewrite (r_parts _ _ R i ltac:(lia)); eapply cnt_pos; eauto; apply touch_iff; cbn; auto).
    assert (0 < parts st j) by (rewrite (r_parts _ _ R j ltac:(lia)); eapply cnt_pos; eauto; apply touch_iff; cbn; auto).
    split; right; (split; [lia|apply Z.ltb_lt; assumption]). }
  assert (X3 : GI A st [] (fun _ => false) (parts st) (processed st) []).
  { constructor; [intros i j []|constructor|intros b; split; [discriminate|intros []]|intros i j; cbn; tauto|exact (r_parts _ _ R)|intros b c []]. }
  destruct (greedy_ok q st A R EL _ [] _ _ _ _ _ _ _ X1 X2 X3 Eg) as (vis & sch & G & Mx).
  assert (RI : RInv A (mkS (active st) (active_next st) proc pa (pairs st) (round st))).
  { constructor; cbn [parts pairs processed]; [exact (r_nodup _ _ R)|exact (r_lt _ _ R)|exact (g_pa _ _ _ _ _ _ _ G)|exact (r_pairs _ _ R)|].
    intros i j X. apply (g_proc _ _ _ _ _ _ _ G) in X. destruct X as [X|X]; [exact (r_proc _ _ R i j X)|apply (g_in _ _ _ _ _ _ _ G i j X)]. }
  split; [exact RI|]. split; [repeat split|]. split; [reflexivity|]. split; [exact (g_nd _ _ _ _ _ _ _ G)|]. split; [exact (g_in _ _ _ _ _ _ _ G)|]. split; [exact (g_proc _ _ _ _ _ _ _ G)|]. split; [exact Mx|].
  split.
  - intros -> i j I. destruct (processed st i j) eqn:X; [reflexivity|]. exfalso. destruct (Mx i j I) as [[]|[]]. destruct (proc i j) eqn:Y; [|reflexivity]. apply (g_proc _ _ _ _ _ _ _ G) in Y. destruct Y as [Y|[]]. congruence.
  - intros Al. destruct ts0 as [|[i j] r]; [reflexivity|]. exfalso. destruct (g_in _ _ _ _ _ _ _ G i j (or_introl eq_refl)) as [I Pf]. rewrite (Al i j I) in Pf. discriminate Pf.
Qed.
End Thms.
