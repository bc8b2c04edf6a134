(** ContractProofs.v - C18, C19, C20: properties of hypergraph contraction, for every schedule. *)
From Verif Require Import Base Spec SpecLemmas WfCheck PrefixSum Rank Sorting Contract.

Lemma same_pins_eq l1 l2 : same_pins l1 l2 = true <-> l1 = l2.
Proof.
  revert l2. induction l1 as [|x r IH]; intros [|y s]; simpl; split; intros Hh; try congruence.
  - destruct (Nat.eqb_spec x y); [|discriminate]. subst. f_equal. apply IH. exact Hh.
  - inversion Hh; subst. rewrite Nat.eqb_refl. apply IH. reflexivity.
Qed.

Lemma bucket_of_lt t key : (bucket_of t key < 2 ^ t)%nat.
Proof.
  unfold bucket_of. replace (2 ^ Z.of_nat t - 1) with (Z.ones (Z.of_nat t)) by (rewrite Z.ones_equiv; lia).
  rewrite Z.land_ones by lia.
  assert (0 <= key mod 2 ^ Z.of_nat t < 2 ^ Z.of_nat t) by (apply Z.mod_pos_bound; lia).
  assert (Z.of_nat (2 ^ t) = 2 ^ Z.of_nat t) by (rewrite Nat2Z.inj_pow; reflexivity).
  lia.
Qed.

Lemma filter_length_le_ {A} (p : A -> bool) (l : list A) : (length (filter p l) <= length l)%nat.
Proof. induction l as [|x r IH]; simpl; [lia|]. destruct (p x); simpl; lia. Qed.
Lemma NoDup_app_inv {A} (l1 l2 : list A) :
  NoDup (l1 ++ l2) -> NoDup l1 /\ NoDup l2 /\ (forall x, In x l1 -> ~ In x l2).
Proof.
  induction l1 as [|a l1 IH]; simpl; intros Hnd; [repeat split; auto; constructor|].
  inversion Hnd as [|? ? Ha Hr]; subst. destruct (IH Hr) as [N1 [N2 N3]]. split; [|split].
  - constructor; [|exact N1]. intros C. apply Ha. apply in_or_app. left. exact C.
  - exact N2.
  - intros x [<-|Hx] Hc; [apply Ha; apply in_or_app; right; exact Hc|exact (N3 x Hx Hc)].
Qed.

(** *** Parallel hyperedge detection *)
Section Detect.
Variables (H : hypergraph) (kInv : nat) (comm : nat -> nat).
Notation cp := (cpins H kInv comm).
Notation innr := (inner H kInv comm).
Notation outr := (outer H kInv comm).
Definition good (x : info) : Prop := i_hash x = footprint (cp (i_he x)).
Definition matches (x y : info) : bool :=
  i_valid y && (i_hash x =? i_hash y) && parallel H kInv comm (i_he x) (i_he y).
Definition hle (x y : info) : Prop := i_hash x <= i_hash y.

Lemma inner_spec w x lw l v :
  Forall (hle x) l -> StronglySorted hle l ->
  let '(lw', r', v') := innr w x lw l v in
  lw' = lw + sumZ (fun y => w (i_he y)) (filter (matches x) l) /\
  r' = map (fun y => if matches x y then invalidate y else y) l /\
  (forall e, v' e = v e && negb (existsb (fun y => matches x y && Nat.eqb (i_he y) e) l)).
Proof.
  revert lw v. induction l as [|y r IH]; intros lw v Hf Hs.
  - simpl. split; [lia|split; [reflexivity|intros e; rewrite andb_true_r; reflexivity]].
  - inversion Hf as [|? ? Hxy Hfr]; subst. inversion Hs as [|? ? Hsr Hyr]; subst.
    cbn [inner]. fold (matches x y). destruct (matches x y) eqn:Em.
    + specialize (IH (lw + w (i_he y)) (upd v (i_he y) false) Hfr Hsr).
      destruct (innr w x (lw + w (i_he y)) r (upd v (i_he y) false)) as [[lw' r'] v'].
      destruct IH as [I1 [I2 I3]]. cbn [filter map existsb]. rewrite Em. cbn [sumZ].
      split; [lia|split; [rewrite I2; reflexivity|]].
      intros e. rewrite I3. unfold upd. rewrite (Nat.eqb_sym (i_he y) e).
      destruct (Nat.eqb_spec e (i_he y)); simpl; [rewrite andb_false_r|]; reflexivity.
    + destruct (Z.eqb_spec (i_hash x) (i_hash y)) as [Heq|Hne]; cbn [negb].
      * specialize (IH lw v Hfr Hsr). destruct (innr w x lw r v) as [[lw' r'] v'].
        destruct IH as [I1 [I2 I3]]. cbn [filter map existsb]. rewrite Em. cbn [andb orb].
        split; [exact I1|split; [rewrite I2; reflexivity|exact I3]].
      * assert (Hno : forall z, In z r -> matches x z = false).
        { intros z Hz. unfold matches. rewrite Forall_forall in Hyr. specialize (Hyr z Hz).
          unfold hle in *. destruct (Z.eqb_spec (i_hash x) (i_hash z)); [lia|].
          rewrite andb_false_r. reflexivity. }
        assert (Hall : forall z, In z (y :: r) -> matches x z = false).
        { intros z [<-|Hz]; [exact Em|apply Hno; exact Hz]. }
        split; [|split].
        -- rewrite sumZ_filter. rewrite sumZ_zero; [lia|]. intros z Hz. rewrite (Hall z Hz). reflexivity.
        -- symmetry. rewrite <- map_id. apply map_ext_in. intros z Hz. rewrite (Hall z Hz). reflexivity.
        -- intros e. replace (existsb _ (y :: r)) with false; [rewrite andb_true_r; reflexivity|].
           symmetry. apply not_true_is_false. intros Hc. apply existsb_exists in Hc. destruct Hc as [z [Hz Hc]].
           rewrite (Hall z Hz) in Hc. discriminate.
Qed.

Lemma matches_cp x y : good x -> good y -> matches x y = i_valid y && parallel H kInv comm (i_he x) (i_he y).
Proof.
  intros Hx Hy. unfold matches. destruct (parallel H kInv comm (i_he x) (i_he y)) eqn:E; [|rewrite !andb_false_r; reflexivity].
  apply same_pins_eq in E. rewrite Hx, Hy, E, Z.eqb_refl, !andb_true_r. reflexivity.
Qed.

Definition hes (l : list info) : list nat := map i_he l.
Definition upd_infos (x : info) (l : list info) : list info := map (fun y => if matches x y then invalidate y else y) l.
Lemma upd_infos_he x l : hes (upd_infos x l) = hes l.
Proof. unfold hes, upd_infos. rewrite map_map. apply map_ext. intros y. destruct (matches x y); reflexivity. Qed.
Lemma upd_infos_good x l : Forall good l -> Forall good (upd_infos x l).
Proof.
  intros Hg. apply Forall_forall. intros y Hy. apply in_map_iff in Hy. destruct Hy as [z [<- Hz]].
  rewrite Forall_forall in Hg. specialize (Hg z Hz). destruct (matches x z); exact Hg.
Qed.
Lemma upd_infos_sorted x l : StronglySorted hle l -> StronglySorted hle (upd_infos x l).
Proof.
  induction 1 as [|y r Hr IH Hy]; simpl; [constructor|]. constructor; [exact IH|].
  rewrite Forall_forall in Hy |- *. intros z Hz. apply in_map_iff in Hz. destruct Hz as [z' [<- Hz]].
  specialize (Hy z' Hz). unfold hle in *. destruct (matches x y), (matches x z'); exact Hy.
Qed.

(** What the two loops achieve on one bucket. *)
Record detected (l : list info) (w : nat -> Z) (v : nat -> bool) (w' : nat -> Z) (v' : nat -> bool) : Prop := {
  dt_out_w : forall e, ~ In e (hes l) -> w' e = w e;
  dt_out_v : forall e, ~ In e (hes l) -> v' e = v e;
  dt_sub : forall y, In y l -> v' (i_he y) = true -> i_valid y = true;
  dt_sum : forall phi : list nat -> Z,
    sumZ (fun y => if v' (i_he y) then w' (i_he y) * phi (cp (i_he y)) else 0) l =
    sumZ (fun y => if i_valid y then w (i_he y) * phi (cp (i_he y)) else 0) l;
  dt_distinct : forall y z, In y l -> In z l -> v' (i_he y) = true -> v' (i_he z) = true ->
    cp (i_he y) = cp (i_he z) -> i_he y = i_he z;
  dt_rep : forall y, In y l -> i_valid y = true ->
    exists z, In z l /\ v' (i_he z) = true /\ cp (i_he z) = cp (i_he y)
}.

Lemma in_hes y l : In y l -> In (i_he y) (hes l).
Proof. intros Hy. apply in_map. exact Hy. Qed.

Lemma outer_spec fuel : forall l w v,
  (length l <= fuel)%nat -> NoDup (hes l) -> StronglySorted hle l -> Forall good l ->
  (forall y, In y l -> v (i_he y) = i_valid y) ->
  detected l w v (fst (outr fuel l w v)) (snd (outr fuel l w v)).
Proof.
  induction fuel as [|fuel IH]; intros l w v Hlen Hnd Hs Hg Hv.
  - destruct l as [|x r]; [|simpl in Hlen; lia]. simpl.
    constructor; intros; try reflexivity; try contradiction.
  - destruct l as [|x r].
    { simpl. constructor; intros; try reflexivity; try contradiction. }
    cbn [outer]. cbn [length] in Hlen. inversion Hs as [|? ? Hsr Hxr]; subst.
    inversion Hg as [|? ? Hgx Hgr]; subst. cbn [hes map] in Hnd. inversion Hnd as [|? ? Hxn Hndr]; subst.
    fold (hes r) in Hxn, Hndr.
    destruct (i_valid x) eqn:Ex.
    + pose proof (inner_spec w x (w (i_he x)) r v Hxr Hsr) as Hin.
      destruct (innr w x (w (i_he x)) r v) as [[lw r'] v1]. destruct Hin as [I1 [I2 I3]].
      fold (upd_infos x r) in I2. subst r'.
      set (w1 := upd w (i_he x) lw).
      assert (Hvx : v1 (i_he x) = true).
      { rewrite I3, Hv by (left; reflexivity). rewrite Ex. simpl. apply negb_true_iff. apply not_true_is_false.
        intros Hc. apply existsb_exists in Hc. destruct Hc as [y [Hy Hc]]. apply andb_true_iff in Hc.
        destruct Hc as [_ Hc]. apply Nat.eqb_eq in Hc. apply Hxn. rewrite <- Hc. apply in_hes. exact Hy. }
      assert (Huniq : forall y z, In y r -> In z r -> i_he y = i_he z -> y = z).
      { intros y z Hy Hz He. clear -Hndr Hy Hz He. induction r as [|a r IHr]; [destruct Hy|].
        cbn [hes map] in Hndr. inversion Hndr as [|? ? Han Hnr]; subst. fold (hes r) in Han, Hnr.
        destruct Hy as [<-|Hy], Hz as [<-|Hz]; [reflexivity| | |apply IHr; assumption].
        - exfalso. apply Han. rewrite He. apply in_hes. exact Hz.
        - exfalso. apply Han. rewrite <- He. apply in_hes. exact Hy. }
      assert (Hv1 : forall y, In y r -> v1 (i_he y) = i_valid y && negb (matches x y)).
      { intros y Hy. rewrite I3, Hv by (right; exact Hy). f_equal. f_equal.
        destruct (matches x y) eqn:Em.
        - apply existsb_exists. exists y. rewrite Em, Nat.eqb_refl. split; [exact Hy|reflexivity].
        - apply not_true_is_false. intros Hc. apply existsb_exists in Hc. destruct Hc as [z [Hz Hc]].
          apply andb_true_iff in Hc. destruct Hc as [Hc1 Hc2]. apply Nat.eqb_eq in Hc2.
          rewrite (Huniq y z Hy Hz ltac:(congruence)) in Em. congruence. }
      assert (D : detected (upd_infos x r) w1 v1 (fst (outr fuel (upd_infos x r) w1 v1))
                    (snd (outr fuel (upd_infos x r) w1 v1))).
      { apply IH.
        - unfold upd_infos. rewrite map_length. lia.
        - rewrite upd_infos_he. exact Hndr.
        - apply upd_infos_sorted. exact Hsr.
        - apply upd_infos_good. exact Hgr.
        - intros y Hy. apply in_map_iff in Hy. destruct Hy as [z [Hz1 Hz2]].
          assert (i_he y = i_he z) by (subst y; destruct (matches x z); reflexivity).
          rewrite H0, (Hv1 z Hz2). subst y. destruct (matches x z); cbn [invalidate i_valid negb].
          + apply andb_false_r.
          + apply andb_true_r. }
      destruct (outr fuel (upd_infos x r) w1 v1) as [w' v'] eqn:Eo. cbn [fst snd] in *.
      destruct D as [D1 D2 D3 D4 D5 D6]. rewrite upd_infos_he in D1, D2.
      assert (Hwx : w' (i_he x) = lw) by (rewrite D1 by exact Hxn; apply upd_same).
      assert (Hv'x : v' (i_he x) = true) by (rewrite D2 by exact Hxn; exact Hvx).
      assert (Hlift : forall y, In y r -> exists y', In y' (upd_infos x r) /\ i_he y' = i_he y /\
                 i_valid y' = i_valid y && negb (matches x y)).
      { intros y Hy. exists (if matches x y then invalidate y else y). split; [|split].
        - apply (in_map (fun y => if matches x y then invalidate y else y)). exact Hy.
        - destruct (matches x y); reflexivity.
        - destruct (matches x y); cbn [invalidate i_valid negb]; [rewrite andb_false_r|rewrite andb_true_r]; reflexivity. }
      constructor.
      * intros e He. cbn [hes map] in He. rewrite D1 by (intros C; apply He; right; exact C).
        unfold w1. apply upd_other. intros C. apply He. left. congruence.
      * intros e He. cbn [hes map] in He. rewrite D2 by (intros C; apply He; right; exact C).
        rewrite I3. replace (existsb _ r) with false; [apply andb_true_r|]. symmetry. apply not_true_is_false.
        intros Hc. apply existsb_exists in Hc. destruct Hc as [z [Hz Hc]]. apply andb_true_iff in Hc.
        destruct Hc as [_ Hc]. apply Nat.eqb_eq in Hc. apply He. right. rewrite <- Hc. apply in_hes. exact Hz.
      * intros y [<-|Hy] Hvy; [exact Ex|]. destruct (Hlift y Hy) as [y' [L1 [L2 L3]]].
        rewrite <- L2 in Hvy. specialize (D3 y' L1 Hvy). rewrite L3 in D3. apply andb_true_iff in D3. apply D3.
      * intros phi. cbn [sumZ]. rewrite Hv'x, Hwx, Ex. specialize (D4 phi).
        unfold upd_infos in D4. rewrite !sumZ_map in D4.
        assert (A1 : sumZ (fun y => if v' (i_he y) then w' (i_he y) * phi (cp (i_he y)) else 0) r =
          sumZ (fun y => if i_valid y && negb (matches x y) then w (i_he y) * phi (cp (i_he y)) else 0) r).
        { etransitivity; [|etransitivity; [exact D4|]].
          - apply sumZ_ext. intros y Hy. destruct (matches x y); reflexivity.
          - apply sumZ_ext. intros y Hy.
            assert (Hw1 : w1 (i_he y) = w (i_he y)).
            { unfold w1. apply upd_other. intros C. apply Hxn. rewrite <- C. apply in_hes. exact Hy. }
            destruct (matches x y); cbn [invalidate i_he i_valid negb].
            + rewrite andb_false_r. reflexivity.
            + rewrite andb_true_r, Hw1. reflexivity. }
        rewrite A1, I1, sumZ_filter.
        rewrite Z.mul_add_distr_r. rewrite <- Z.add_assoc. f_equal.
        rewrite (Z.mul_comm (sumZ _ r)), <- sumZ_scale, <- sumZ_plus. apply sumZ_ext. intros y Hy.
        destruct (matches x y) eqn:Em; cbn [negb]; [|rewrite andb_true_r; lia].
        rewrite andb_false_r. unfold matches in Em. apply andb_true_iff in Em. destruct Em as [Em Ep].
        apply andb_true_iff in Em. destruct Em as [Ev _]. rewrite Ev.
        apply same_pins_eq in Ep. rewrite Ep. lia.
      * intros y z Hy Hz Hvy Hvz Hcp. rewrite Forall_forall in Hgr.
        assert (Hx : forall t, In t r -> v' (i_he t) = true -> cp (i_he x) <> cp (i_he t)).
        { intros t Ht Hvt Hc. destruct (Hlift t Ht) as [t' [L1 [L2 L3]]]. rewrite <- L2 in Hvt.
          specialize (D3 t' L1 Hvt). rewrite L3 in D3. apply andb_true_iff in D3. destruct D3 as [Ht1 Ht2].
          rewrite (matches_cp x t Hgx (Hgr t Ht)), Ht1 in Ht2. simpl in Ht2.
          assert (parallel H kInv comm (i_he x) (i_he t) = true) by (apply same_pins_eq; exact Hc).
          rewrite H0 in Ht2. discriminate. }
        destruct Hy as [<-|Hy], Hz as [<-|Hz].
        -- reflexivity.
        -- exfalso. exact (Hx z Hz Hvz Hcp).
        -- exfalso. exact (Hx y Hy Hvy (eq_sym Hcp)).
        -- destruct (Hlift y Hy) as [y' [L1 [L2 _]]], (Hlift z Hz) as [z' [M1 [M2 _]]].
           rewrite <- L2, <- M2 in *. apply D5; assumption.
      * intros y [<-|Hy] Hvy; [exists x; split; [left; reflexivity|split; [exact Hv'x|reflexivity]]|].
        destruct (matches x y) eqn:Em.
        -- exists x. split; [left; reflexivity|split; [exact Hv'x|]]. unfold matches in Em.
           apply andb_true_iff in Em. destruct Em as [_ Ep]. apply same_pins_eq in Ep. exact Ep.
        -- destruct (Hlift y Hy) as [y' [L1 [L2 L3]]]. rewrite Em, Hvy in L3.
           destruct (D6 y' L1 L3) as [z' [Z1 [Z2 Z3]]]. apply in_map_iff in Z1. destruct Z1 as [z [Z0 Z1]].
           assert (Hz : i_he z' = i_he z) by (subst z'; destruct (matches x z); reflexivity).
           exists z. rewrite <- Hz, <- L2. split; [right; exact Z1|split; assumption].
    + pose proof (IH r w v ltac:(lia) Hndr Hsr Hgr (fun y Hy => Hv y (or_intror Hy))) as D.
      destruct (outr fuel r w v) as [w' v'] eqn:Eo. cbn [fst snd] in *.
      destruct D as [D1 D2 D3 D4 D5 D6].
      assert (Hv'x : v' (i_he x) = false).
      { rewrite D2 by exact Hxn. rewrite Hv by (left; reflexivity). exact Ex. }
      constructor.
      * intros e He. apply D1. intros C. apply He. right. exact C.
      * intros e He. apply D2. intros C. apply He. right. exact C.
      * intros y [<-|Hy] Hvy; [congruence|apply D3; assumption].
      * intros phi. cbn [sumZ]. rewrite Hv'x, Ex, D4. reflexivity.
      * intros y z [<-|Hy] [<-|Hz] Hvy Hvz; try congruence. apply D5; assumption.
      * intros y [<-|Hy] Hvy; [congruence|]. destruct (D6 y Hy Hvy) as [z [Z1 Z2]].
        exists z. split; [right; exact Z1|exact Z2].
Qed.

Lemma info_leb_total x y : info_leb x y = true \/ info_leb y x = true.
Proof. unfold info_leb. lia. Qed.
Lemma info_leb_trans x y z : info_leb x y = true -> info_leb y z = true -> info_leb x z = true.
Proof. unfold info_leb. lia. Qed.
Lemma info_leb_hash x y : info_leb x y = true -> hle x y.
Proof. unfold info_leb, hle. lia. Qed.

Record detected_b (b : list nat) (w : nat -> Z) (v : nat -> bool) (w' : nat -> Z) (v' : nat -> bool) : Prop := {
  db_out_w : forall e, ~ In e b -> w' e = w e;
  db_out_v : forall e, ~ In e b -> v' e = v e;
  db_sum : forall phi : list nat -> Z,
    sumZ (fun e => if v' e then w' e * phi (cp e) else 0) b = sumZ (fun e => w e * phi (cp e)) b;
  db_distinct : forall e1 e2, In e1 b -> In e2 b -> v' e1 = true -> v' e2 = true -> cp e1 = cp e2 -> e1 = e2;
  db_rep : forall e, In e b -> exists e2, In e2 b /\ v' e2 = true /\ cp e2 = cp e
}.

Lemma process_bucket_spec b w v :
  NoDup b -> (forall e, In e b -> v e = true) ->
  detected_b b w v (fst (process_bucket H kInv comm b w v)) (snd (process_bucket H kInv comm b w v)).
Proof.
  intros Hnd Hv. unfold process_bucket. set (l := isort info_leb (map (mk_info H kInv comm) b)).
  assert (Hperm : Permutation l (map (mk_info H kInv comm) b)) by apply isort_perm.
  assert (Hph : Permutation (hes l) b).
  { unfold hes. eapply Permutation_trans; [apply Permutation_map; exact Hperm|].
    rewrite map_map. simpl. rewrite map_id. apply Permutation_refl. }
  assert (Hinl : forall y, In y l -> exists e, In e b /\ y = mk_info H kInv comm e).
  { intros y Hy. apply (Permutation_in y Hperm) in Hy. apply in_map_iff in Hy. destruct Hy as [e [<- He]].
    exists e. split; [exact He|reflexivity]. }
  assert (Hss : StronglySorted hle l).
  { assert (StronglySorted (lesort info_leb) l) by (apply isort_sorted; [apply info_leb_total|apply info_leb_trans]).
    clear -H0. induction H0 as [|x r Hr IH Hx]; constructor; [exact IH|].
    eapply Forall_impl; [|exact Hx]. intros y. apply info_leb_hash. }
  pose proof (outer_spec (length l) l w v (le_n _) (Permutation_NoDup (Permutation_sym Hph) Hnd) Hss) as D.
  destruct (outer H kInv comm (length l) l w v) as [w' v'] eqn:Eo. cbn [fst snd] in *.
  destruct D as [D1 D2 D3 D4 D5 D6].
  { apply Forall_forall. intros y Hy. destruct (Hinl y Hy) as [e [_ ->]]. reflexivity. }
  { intros y Hy. destruct (Hinl y Hy) as [e [He ->]]. simpl. apply Hv. exact He. }
  assert (Hback : forall e, In e b -> In (mk_info H kInv comm e) l).
  { intros e He. apply (Permutation_in _ (Permutation_sym Hperm)). apply in_map. exact He. }
  constructor.
  - intros e He. apply D1. intros C. apply He. apply (Permutation_in _ Hph). exact C.
  - intros e He. apply D2. intros C. apply He. apply (Permutation_in _ Hph). exact C.
  - intros phi. specialize (D4 phi). rewrite !(sumZ_perm _ _ _ Hperm), !sumZ_map in D4. exact D4.
  - intros e1 e2 H1 H2 V1 V2 Hc.
    exact (D5 (mk_info H kInv comm e1) (mk_info H kInv comm e2) (Hback _ H1) (Hback _ H2) V1 V2 Hc).
  - intros e He. destruct (D6 _ (Hback e He) eq_refl) as [z [Z1 [Z2 Z3]]].
    destruct (Hinl z Z1) as [e2 [He2 ->]]. exists e2. split; [exact He2|split; assumption].
Qed.

(** All buckets. *)
Lemma stage3_spec (bs : list (list nat)) w v :
  NoDup (concat bs) -> (forall e, In e (concat bs) -> v e = true) ->
  (forall e1 e2 b1 b2, In b1 bs -> In b2 bs -> In e1 b1 -> In e2 b2 -> cp e1 = cp e2 -> b1 = b2) ->
  let st := fold_left (fun st b => process_bucket H kInv comm b (fst st) (snd st)) bs (w, v) in
  detected_b (concat bs) w v (fst st) (snd st).
Proof.
  revert w v. induction bs as [|b r IH]; intros w v Hnd Hv Hsep; simpl.
  - constructor; intros; try reflexivity; contradiction.
  - cbn [concat] in Hnd. destruct (NoDup_app_inv _ _ Hnd) as [Hnb [Hnr Hdisj]].
    pose proof (process_bucket_spec b w v Hnb
                 (fun e He => Hv e (in_or_app _ _ _ (or_introl He)))) as D.
    set (w1 := fst (process_bucket H kInv comm b w v)) in *. set (v1 := snd (process_bucket H kInv comm b w v)) in *.
    specialize (IH w1 v1 Hnr).
    assert (E : process_bucket H kInv comm b w v = (w1, v1)) by apply surjective_pairing.
    rewrite E.
    destruct IH as [I1 I2 I3 I4 I5].
    { intros e He. destruct D as [_ D2 _ _ _]. rewrite D2; [apply Hv; apply in_or_app; right; exact He|].
      intros C. exact (Hdisj e C He). }
    { intros e1 e2 b1 b2 H1 H2. apply Hsep; right; assumption. }
    destruct D as [D1 D2 D3 D4 D5].
    set (st := fold_left _ r (w1, v1)) in *.
    constructor.
    + intros e He. rewrite I1, D1; [reflexivity| |]; intros C; apply He; apply in_or_app; tauto.
    + intros e He. rewrite I2, D2; [reflexivity| |]; intros C; apply He; apply in_or_app; tauto.
    + intros phi. rewrite !sumZ_app. rewrite I3. f_equal.
      * rewrite <- D3. apply sumZ_ext. intros e He. rewrite I1, I2 by (apply Hdisj; exact He). reflexivity.
      * apply sumZ_ext. intros e He. rewrite D1; [reflexivity|]. intros C. exact (Hdisj e C He).
    + intros e1 e2 H1 H2 V1 V2 Hc. apply in_app_or in H1, H2.
      assert (Hconc : forall e, In e (concat r) -> exists b', In b' r /\ In e b').
      { intros e He. apply in_concat in He. destruct He as [b' [A B]]. exists b'. split; assumption. }
      destruct H1 as [H1|H1], H2 as [H2|H2].
      * rewrite I2 in V1, V2 by (apply Hdisj; assumption). apply D4; assumption.
      * destruct (Hconc e2 H2) as [b2 [A B]].
        assert (b = b2) by (apply (Hsep e1 e2); [left; reflexivity|right; exact A|exact H1|exact B|exact Hc]).
        exfalso. apply (Hdisj e2); [subst; exact B|exact H2].
      * destruct (Hconc e1 H1) as [b2 [A B]].
        assert (b2 = b) by (apply (Hsep e1 e2); [right; exact A|left; reflexivity|exact B|exact H2|exact Hc]).
        exfalso. apply (Hdisj e1); [subst; exact B|exact H1].
      * apply I4; assumption.
    + intros e He. apply in_app_or in He. destruct He as [He|He].
      * destruct (D5 e He) as [e2 [E1 [E2 E3]]]. exists e2. split; [apply in_or_app; left; exact E1|].
        rewrite I2 by (apply Hdisj; exact E1). split; assumption.
      * destruct (I5 e He) as [e2 [E1 E2]]. exists e2. split; [apply in_or_app; right; exact E1|exact E2].
Qed.
End Detect.

(** *** Helper lemmas for renumbering *)
Lemma rank_sum (p : nat -> bool) (F : nat -> Z) m :
  sumZ F (seq 0 (rank p m)) = sumZ (fun e => if p e then F (rank p e) else 0) (seq 0 m).
Proof.
  induction m as [|m IH]; [reflexivity|]. rewrite rank_S, (seq_S m 0), sumZ_app, <- IH. simpl.
  destruct (p m).
  - rewrite (seq_app _ 1 0), sumZ_app. simpl. lia.
  - rewrite Nat.add_0_r. lia.
Qed.
Lemma sum_members (l : list nat) (m : nat) (F : nat -> Z) :
  NoDup l -> (forall e, In e l -> (e < m)%nat) ->
  sumZ (fun e => if mem e l then F e else 0) (seq 0 m) = sumZ F l.
Proof.
  intros Hnd Hlt. rewrite <- (sumZ_filter F (fun e => mem e l)). apply sumZ_perm.
  apply NoDup_Permutation; [apply NoDup_filter_, seq_NoDup|exact Hnd|].
  intros e. rewrite filter_In, in_seq, mem_In. split; [tauto|]. intros He. split; [|exact He].
  specialize (Hlt e He). lia.
Qed.
Lemma add_weights_spec H kInv comm order c w0 :
  fold_left (fun w v => upd w (cmap H kInv comm v) (w (cmap H kInv comm v) + nw H v)) order w0 c =
  w0 c + sumZ (fun v => if Nat.eqb (cmap H kInv comm v) c then nw H v else 0) order.
Proof.
  revert w0. induction order as [|v r IH]; intros w0; cbn [fold_left sumZ]; [lia|].
  rewrite IH. unfold upd. rewrite (Nat.eqb_sym c). destruct (Nat.eqb_spec (cmap H kInv comm v) c) as [E|E];
    [rewrite E|]; lia.
Qed.

Lemma map_ext_seq {B} (f g : nat -> B) a c : (forall i, (a <= i < a + c)%nat -> f i = g i) ->
  map f (seq a c) = map g (seq a c).
Proof. intros Hf. apply map_ext_in. intros i Hi. apply in_seq in Hi. apply Hf. lia. Qed.

Lemma remap_spec v cnt : forall pos a,
  let '(size, a') := remap v cnt pos a in
  (forall i, (i < pos)%nat -> a' i = a i) /\ (pos <= size)%nat /\
  Permutation (map a' (seq pos (size - pos))) (map (rank v) (filter v (map a (seq pos cnt)))).
Proof.
  induction cnt as [|c IH]; intros pos a; cbn [remap].
  - split; [reflexivity|split; [lia|]]. rewrite Nat.sub_diag. simpl. constructor.
  - destruct (v (a pos)) eqn:E.
    + specialize (IH (S pos) (upd a pos (rank v (a pos)))).
      destruct (remap v c (S pos) (upd a pos (rank v (a pos)))) as [size a'].
      destruct IH as [I1 [I2 I3]]. split; [|split].
      * intros i Hi. rewrite I1 by lia. apply upd_other. lia.
      * lia.
      * replace (size - pos)%nat with (S (size - S pos)) by lia. cbn [seq map filter]. rewrite E. cbn [map].
        rewrite I1 by lia. rewrite upd_same. apply perm_skip. eapply Permutation_trans; [exact I3|].
        rewrite (map_ext_seq (upd a pos (rank v (a pos))) a (S pos) c); [apply Permutation_refl|].
        intros i Hi. apply upd_other. lia.
    + set (a1 := upd (upd a pos (a (pos + c)%nat)) (pos + c)%nat (a pos)).
      specialize (IH pos a1). destruct (remap v c pos a1) as [size a'].
      destruct IH as [I1 [I2 I3]]. split; [|split].
      * intros i Hi. rewrite I1 by lia. unfold a1. rewrite upd_other by lia. apply upd_other. lia.
      * exact I2.
      * cbn [seq map filter]. rewrite E. eapply Permutation_trans; [exact I3|].
        apply Permutation_map.
        assert (P : Permutation (map a1 (seq pos c)) (map a (seq (S pos) c))).
        { destruct c as [|c]; [simpl; constructor|].
          rewrite (seq_S c (S pos)), map_app. cbn [seq map].
          replace (a1 pos) with (a (pos + S c)%nat).
          - rewrite (map_ext_seq a1 a (S pos) c).
            + replace (S pos + c)%nat with (pos + S c)%nat by lia. apply Permutation_cons_append.
            + intros i Hi. unfold a1. rewrite upd_other by lia. apply upd_other. lia.
          - unfold a1. rewrite upd_other by lia. rewrite upd_same. reflexivity. }
        clear -P. induction P as [|x l l' P IH|x y l|l l' l'' P1 IH1 P2 IH2]; simpl.
        -- constructor.
        -- destruct (v x); [apply perm_skip|]; exact IH.
        -- destruct (v x), (v y); try apply Permutation_refl. apply perm_swap.
        -- eapply Permutation_trans; eassumption.
Qed.
Lemma remap_list_perm v l : Permutation (remap_list v l) (map (rank v) (filter v l)).
Proof.
  unfold remap_list. pose proof (remap_spec v (length l) 0 (arr l)) as R.
  destruct (remap v (length l) 0 (arr l)) as [size a]. destruct R as [_ [_ R]].
  rewrite Nat.sub_0_r in R. eapply Permutation_trans; [exact R|].
  replace (map (arr l) (seq 0 (length l))) with l; [apply Permutation_refl|].
  unfold arr. clear. induction l as [|x r IH]; [reflexivity|]. cbn [length seq map nth].
  rewrite <- seq_shift, map_map. f_equal. exact IH.
Qed.

Lemma drop_inv_id kInv l : ~ In kInv l -> drop_inv kInv l = l.
Proof.
  destruct l as [|x r]; intros Hn; [reflexivity|]. simpl. destruct (Nat.eqb_spec x kInv) as [->|]; [|reflexivity].
  exfalso. apply Hn. left. reflexivity.
Qed.
Lemma strip_id kInv l : ~ In kInv l -> strip kInv l = l.
Proof.
  intros Hn. unfold strip. rewrite drop_inv_id; [apply rev_involutive|]. rewrite <- in_rev. exact Hn.
Qed.

(** Connectivity of a list of pins. *)
Definition connl (P : partition) (l : list nat) : Z :=
  Z.of_nat (length (nodup Nat.eq_dec (flat_map (fun v => match P v with Some b => [b] | None => [] end) l))).
Lemma connl_image (P Q : partition) (f : nat -> nat) l1 l2 :
  (forall v, In v l1 -> P v = Q (f v)) -> (forall x, In x l2 <-> exists v, In v l1 /\ f v = x) ->
  connl P l1 = connl Q l2.
Proof.
  intros Hp Hi. unfold connl. f_equal. apply NoDup_length_eq; try apply NoDup_nodup.
  intros b. rewrite !nodup_In, !in_flat_map. split.
  - intros [v [Hv Hb]]. exists (f v). split; [apply Hi; exists v; split; [exact Hv|reflexivity]|].
    rewrite <- Hp by exact Hv. exact Hb.
  - intros [x [Hx Hb]]. apply Hi in Hx. destruct Hx as [v [Hv <-]]. exists v. split; [exact Hv|].
    rewrite Hp by exact Hv. exact Hb.
Qed.

(** *** The theorems *)
(** Preconditions of contract: a well-formed hypergraph with ids below n and m, labels below n for enabled nodes
    (ASSERT in :99), the reserved id is not used. *)
Record contract_pre (H : hypergraph) (n m kInv : nat) (comm : nat -> nat) : Prop := {
  cpre_wf : wf_hg H;
  cpre_comm : forall v, In v (nodes H) -> (comm v < n)%nat;
  cpre_edges : forall e, In e (edges H) -> (e < m)%nat;
  cpre_inv : (n <= kInv)%nat
}.

Section Main.
Variables (H : hypergraph) (n m kInv : nat) (comm : nat -> nat) (s : csched).
Hypothesis Hpre : contract_pre H n m kInv comm.
Hypothesis Hs : csched_ok H n m kInv comm s.
Notation cp := (cpins H kInv comm).
Notation f := (cmap H kInv comm).
Notation H' := (contract H n m kInv comm s).
Notation nc := (num_coarse H n comm).

Lemma used_comm v : In v (nodes H) -> used H comm (comm v) = true.
Proof. intros Hv. apply existsb_exists. exists v. split; [exact Hv|apply Nat.eqb_refl]. Qed.
Lemma cmap_active v : In v (nodes H) -> f v = rank (used H comm) (comm v).
Proof. intros Hv. unfold cmap. rewrite (proj2 (mem_In v (nodes H)) Hv). reflexivity. Qed.
Lemma cmap_lt v : In v (nodes H) -> (f v < nc)%nat.
Proof.
  intros Hv. rewrite cmap_active by exact Hv. apply rank_lt; [apply (cpre_comm _ _ _ _ _ Hpre); exact Hv|].
  apply used_comm. exact Hv.
Qed.
Lemma cmap_inj u v : In u (nodes H) -> In v (nodes H) -> (f u = f v <-> comm u = comm v).
Proof.
  intros Hu Hv. rewrite !cmap_active by assumption. split; [|congruence].
  apply rank_inj; apply used_comm; assumption.
Qed.
Lemma cmap_surj c : (c < nc)%nat -> exists v, In v (nodes H) /\ f v = c.
Proof.
  intros Hc. destruct (rank_surj _ _ _ Hc) as [i [_ [Hi Hr]]]. apply existsb_exists in Hi.
  destruct Hi as [v [Hv He]]. apply Nat.eqb_eq in He. exists v. split; [exact Hv|].
  rewrite cmap_active by exact Hv. congruence.
Qed.
Lemma nc_le : (nc <= kInv)%nat.
Proof.
  pose proof (cpre_inv _ _ _ _ _ Hpre). enough (nc <= n)%nat by lia.
  unfold num_coarse, rank. etransitivity; [apply filter_length_le_|]. rewrite seq_length. lia.
Qed.

Lemma cpins_spec e : In e (edges H) ->
  strict (cp e) /\ (forall x, In x (cp e) <-> exists v, In v (pins H e) /\ f v = x).
Proof.
  intros He. assert (Hid : cp e = sort_uniq (map f (pins H e))).
  { unfold cpins. apply strip_id. rewrite sort_uniq_In, in_map_iff. intros [v [Hv Hi]].
    apply (wf_pins_nodes H (cpre_wf _ _ _ _ _ Hpre) e v He) in Hi. pose proof (cmap_lt v Hi). pose proof nc_le. lia. }
  rewrite Hid. split; [apply sort_uniq_strict|]. intros x. rewrite sort_uniq_In, in_map_iff.
  split; intros [v [A B]]; exists v; tauto.
Qed.

(** State after stage 3. *)
Notation st3 := (stage3 H kInv comm (map (cs_bucket s) (cs_border s))).
Notation w3 := (fst st3).
Notation v3 := (snd st3).
Notation all_ins := (filter (valid0 H kInv comm) (seq 0 m)).

Lemma buckets_perm : Permutation (concat (map (cs_bucket s) (cs_border s))) all_ins.
Proof.
  destruct Hs as [_ [Hb [Hc _]]].
  set (t := cs_t s) in *. set (B := (2 ^ t)%nat) in *.
  set (cont := fun b => filter (fun e => valid0 H kInv comm e && Nat.eqb (bucket_of t (footprint (cp e))) b) (seq 0 m)) in *.
  apply Permutation_trans with (concat (map cont (seq 0 B))).
  - apply Permutation_trans with (concat (map cont (cs_border s))).
    + clear -Hc. induction (cs_border s) as [|b r IH]; simpl; [constructor|]. apply Permutation_app; [apply Hc|exact IH].
    + clear -Hb. induction Hb as [|x l l' P IH|x y l|l l' l'' P1 IH1 P2 IH2]; simpl.
      * constructor.
      * apply Permutation_app_head. exact IH.
      * rewrite !app_assoc. apply Permutation_app_tail. apply Permutation_app_comm.
      * eapply Permutation_trans; eassumption.
  - apply NoDup_Permutation.
    + assert (G : forall l, NoDup l -> NoDup (concat (map cont l))).
      { clear. intros l. induction 1 as [|b r Hb Hr IH]; simpl; [constructor|].
        assert (Hn1 : NoDup (cont b)) by (apply NoDup_filter_, seq_NoDup).
        clear Hr. assert (Hd : forall e, In e (cont b) -> ~ In e (concat (map cont r))).
        { intros e He Hc. apply in_concat in Hc. destruct Hc as [l' [Hl' Hel]]. apply in_map_iff in Hl'.
          destruct Hl' as [b' [<- Hb']]. unfold cont in He, Hel. rewrite filter_In in He, Hel.
          destruct He as [_ He], Hel as [_ Hel]. apply andb_true_iff in He, Hel.
          destruct He as [_ He], Hel as [_ Hel]. apply Nat.eqb_eq in He, Hel. subst b b'. contradiction. }
        clear Hb. revert Hn1 Hd. generalize (cont b). intros l0. induction 1 as [|e l1 He Hl IH']; intros Hd; simpl; [exact IH|].
        constructor.
        - intros C. apply in_app_or in C. destruct C as [C|C]; [contradiction|]. exact (Hd e (or_introl eq_refl) C).
        - apply IH'. intros e' He'. apply Hd. right. exact He'. }
      apply G, seq_NoDup.
    + apply NoDup_filter_, seq_NoDup.
    + intros e. rewrite in_concat, filter_In. split.
      * intros [l [Hl He]]. apply in_map_iff in Hl. destruct Hl as [b [<- _]]. unfold cont in He.
        rewrite filter_In in He. destruct He as [H1 H2]. apply andb_true_iff in H2. split; [exact H1|apply H2].
      * intros [H1 H2]. exists (cont (bucket_of t (footprint (cp e)))). split.
        -- apply in_map. apply in_seq. pose proof (bucket_of_lt t (footprint (cp e))). lia.
        -- unfold cont. rewrite filter_In, H2, Nat.eqb_refl. split; [exact H1|reflexivity].
Qed.

Lemma stage3_detected : detected_b H kInv comm all_ins (ew H) (valid0 H kInv comm) w3 v3.
Proof.
  pose proof buckets_perm as Hp.
  assert (Hnd : NoDup (concat (map (cs_bucket s) (cs_border s)))).
  { apply (Permutation_NoDup (Permutation_sym Hp)). apply NoDup_filter_, seq_NoDup. }
  assert (D : detected_b H kInv comm (concat (map (cs_bucket s) (cs_border s))) (ew H) (valid0 H kInv comm) w3 v3).
  { apply stage3_spec.
    - exact Hnd.
    - intros e He. apply (Permutation_in _ Hp) in He. apply filter_In in He. apply He.
    - intros e1 e2 b1 b2 B1 B2 E1 E2 Hc. apply in_map_iff in B1, B2.
      destruct B1 as [c1 [<- C1]], B2 as [c2 [<- C2]]. f_equal.
      destruct Hs as [_ [_ [Hbk _]]].
      apply (Permutation_in _ (Hbk c1)) in E1. apply (Permutation_in _ (Hbk c2)) in E2.
      rewrite filter_In in E1, E2. destruct E1 as [_ E1], E2 as [_ E2].
      apply andb_true_iff in E1, E2. destruct E1 as [_ E1], E2 as [_ E2]. apply Nat.eqb_eq in E1, E2.
      rewrite <- E1, <- E2, Hc. reflexivity. }
  destruct D as [D1 D2 D3 D4 D5]. constructor.
  - intros e He. apply D1. intros C. apply He. apply (Permutation_in _ Hp). exact C.
  - intros e He. apply D2. intros C. apply He. apply (Permutation_in _ Hp). exact C.
  - intros phi. rewrite <- !(sumZ_perm _ _ _ Hp). apply D3.
  - intros e1 e2 E1 E2. apply D4; apply (Permutation_in _ (Permutation_sym Hp)); assumption.
  - intros e He. destruct (D5 e (Permutation_in _ (Permutation_sym Hp) He)) as [e2 [E1 E2]].
    exists e2. split; [apply (Permutation_in _ Hp); exact E1|exact E2].
Qed.

Lemma v3_valid0 e : (e < m)%nat -> v3 e = true -> valid0 H kInv comm e = true.
Proof.
  intros He Hv. destruct (valid0 H kInv comm e) eqn:E; [reflexivity|].
  rewrite (db_out_v _ _ _ _ _ _ _ _ stage3_detected) in Hv; [congruence|].
  rewrite filter_In. intros [_ C]. congruence.
Qed.
Lemma v3_edge e : (e < m)%nat -> v3 e = true -> In e (edges H) /\ (1 < length (cp e))%nat.
Proof.
  intros He Hv. apply v3_valid0 in Hv; [|exact He]. unfold valid0 in Hv. apply andb_true_iff in Hv.
  destruct Hv as [A B]. split; [apply mem_In; exact A|apply Nat.ltb_lt; exact B].
Qed.

(** Sum over coarse edges = sum over fine edges. *)
Lemma stage3_sum (phi : list nat -> Z) :
  sumZ (fun e => if v3 e then w3 e * phi (cp e) else 0) (seq 0 m) =
  sumZ (fun e => if valid0 H kInv comm e then ew H e * phi (cp e) else 0) (seq 0 m).
Proof.
  pose proof (db_sum _ _ _ _ _ _ _ _ stage3_detected phi) as D.
  rewrite !sumZ_filter in D. rewrite <- D. apply sumZ_ext. intros e He. apply in_seq in He.
  destruct (v3 e) eqn:E.
  - rewrite v3_valid0 by (try exact E; lia). reflexivity.
  - destruct (valid0 H kInv comm e); reflexivity.
Qed.

Lemma contract_unfold : H' = mkHG (seq 0 nc) (seq 0 (rank v3 m)) (scatter v3 cp (cs_eorder s) (fun _ => []))
  (fun c => remap_list v3 (cs_inc s c)) (add_weights H kInv comm (cs_worder s)) (scatter v3 w3 (cs_eorder s) (fun _ => 0)).
Proof. unfold contract. rewrite (surjective_pairing st3) at 1. reflexivity. Qed.

Lemma eorder_in e : (e < m)%nat -> In e (cs_eorder s).
Proof.
  intros He. destruct Hs as [_ [_ [_ [_ Ho]]]]. apply (Permutation_in _ (Permutation_sym Ho)). apply in_seq. lia.
Qed.
Lemma coarse_pins e : (e < m)%nat -> v3 e = true -> pins H' (rank v3 e) = cp e.
Proof. intros He Hv. rewrite contract_unfold. simpl. apply scatter_spec; [exact Hv|apply eorder_in; exact He]. Qed.
Lemma coarse_ew e : (e < m)%nat -> v3 e = true -> ew H' (rank v3 e) = w3 e.
Proof. intros He Hv. rewrite contract_unfold. simpl. apply scatter_spec; [exact Hv|apply eorder_in; exact He]. Qed.
Lemma coarse_edge e' : In e' (edges H') -> exists e, (e < m)%nat /\ v3 e = true /\ rank v3 e = e'.
Proof. rewrite contract_unfold. simpl. rewrite in_seq. intros [_ He]. apply rank_surj. lia. Qed.

Lemma coarse_sum (phi : list nat -> Z) :
  sumZ (fun e' => ew H' e' * phi (pins H' e')) (edges H') =
  sumZ (fun e => if (1 <? length (cp e))%nat then ew H e * phi (cp e) else 0) (edges H).
Proof.
  replace (edges H') with (seq 0 (rank v3 m)) by (rewrite contract_unfold; reflexivity).
  rewrite rank_sum.
  transitivity (sumZ (fun e => if v3 e then w3 e * phi (cp e) else 0) (seq 0 m)).
  { apply sumZ_ext. intros e He. apply in_seq in He. destruct (v3 e) eqn:E; [|reflexivity].
    rewrite coarse_pins, coarse_ew by (try exact E; lia). reflexivity. }
  rewrite stage3_sum.
  rewrite <- (sum_members (edges H) m); [|apply (wf_edges H (cpre_wf _ _ _ _ _ Hpre))|apply (cpre_edges _ _ _ _ _ Hpre)].
  apply sumZ_ext. intros e _. unfold valid0. destruct (mem e (edges H)); reflexivity.
Qed.

(** C18: the returned mapping is onto the coarse vertices and respects exactly the labels; coarse weights are the
    sums of the weights of the contracted nodes; total and projected block weights are preserved. *)
Theorem C18_contraction_weights :
  (forall v, In v (nodes H) -> In (f v) (nodes H')) /\
  (forall c, In c (nodes H') -> exists v, In v (nodes H) /\ f v = c) /\
  (forall u v, In u (nodes H) -> In v (nodes H) -> (f u = f v <-> comm u = comm v)) /\
  (forall c, nw H' c = sumZ (nw H) (filter (fun v => Nat.eqb (f v) c) (nodes H))) /\
  total_weight H' = total_weight H /\
  (forall (P : partition) b, block_weight H' P b = block_weight H (fun v => P (f v)) b).
Proof.
  assert (Hw : forall c, nw H' c = sumZ (nw H) (filter (fun v => Nat.eqb (f v) c) (nodes H))).
  { intros c. rewrite contract_unfold. cbn [nw]. unfold add_weights. rewrite add_weights_spec, sumZ_filter.
    rewrite Z.add_0_l. apply sumZ_perm. apply (proj1 Hs). }
  assert (Hproj : forall (q : nat -> bool), sumZ (nw H') (filter q (nodes H')) = sumZ (nw H) (filter (fun v => q (f v)) (nodes H))).
  { intros q. rewrite !sumZ_filter.
    transitivity (sumZ (fun c => sumZ (fun v => if Nat.eqb c (f v) then (if q c then nw H v else 0) else 0) (nodes H)) (nodes H')).
    - apply sumZ_ext. intros c _. rewrite Hw, sumZ_filter. destruct (q c).
      + apply sumZ_ext. intros v _. rewrite (Nat.eqb_sym c). reflexivity.
      + symmetry. apply sumZ_zero. intros v _. destruct (Nat.eqb c (f v)); reflexivity.
    - rewrite sumZ_swap. apply sumZ_ext. intros v Hv.
      rewrite (sumZ_indicator (nodes H') (f v) (fun c => if q c then nw H v else 0)).
      + replace (mem (f v) (nodes H')) with true; [reflexivity|]. symmetry. apply mem_In.
        rewrite contract_unfold. simpl. apply in_seq. pose proof (cmap_lt v Hv). lia.
      + rewrite contract_unfold. simpl. apply seq_NoDup. }
  split; [|split; [|split; [|split; [|split]]]].
  - intros v Hv. rewrite contract_unfold. simpl. apply in_seq. pose proof (cmap_lt v Hv). lia.
  - intros c Hc. rewrite contract_unfold in Hc. simpl in Hc. apply in_seq in Hc. apply cmap_surj. lia.
  - exact cmap_inj.
  - exact Hw.
  - unfold total_weight. pose proof (Hproj (fun _ => true)) as Hx.
    assert (Ft : forall l : list nat, filter (fun _ => true) l = l)
      by (induction l as [|a l IH]; simpl; [reflexivity|rewrite IH; reflexivity]).
    rewrite !Ft in Hx. exact Hx.
  - intros P b. unfold block_weight. apply Hproj.
Qed.

(** C19: for every complete partition of the coarse hypergraph, the partition projected to the fine hypergraph has
    the same cut, km1 and soed. *)
Theorem C19_contraction_objective (P : partition) (k : nat) :
  (forall e, In e (edges H) -> pins H e <> []) ->
  complete H' P k ->
  cut H (fun v => P (f v)) = cut H' P /\ km1 H (fun v => P (f v)) = km1 H' P /\ soed H (fun v => P (f v)) = soed H' P.
Proof.
  intros Hne Hcomp.
  assert (Hconn : forall e, In e (edges H) -> connectivity H (fun v => P (f v)) e = connl P (cp e)).
  { intros e He. destruct (cpins_spec e He) as [_ Hi].
    apply (connl_image (fun v => P (f v)) P f (pins H e) (cp e)); [reflexivity|]. exact Hi. }
  assert (Hone : forall e, In e (edges H) -> (1 <? length (cp e))%nat = false -> connl P (cp e) = 1).
  { intros e He Hl. apply Nat.ltb_ge in Hl. destruct (cpins_spec e He) as [_ Hi].
    destruct (pins H e) as [|v r] eqn:Ep; [exfalso; apply (Hne e He); exact Ep|].
    assert (Hin : In (f v) (cp e)) by (apply Hi; exists v; split; [left; reflexivity|reflexivity]).
    destruct (cp e) as [|x l]; [destruct Hin|]. destruct l as [|y l]; [|simpl in Hl; lia].
    destruct Hin as [->|[]].
    assert (Hv : In v (nodes H)).
    { apply (wf_pins_nodes H (cpre_wf _ _ _ _ _ Hpre) e v He). rewrite Ep. left. reflexivity. }
    destruct (Hcomp (f v)) as [b [Hb _]].
    { rewrite contract_unfold. simpl. apply in_seq. pose proof (cmap_lt v Hv). lia. }
    unfold connl. simpl. rewrite Hb. reflexivity. }
  assert (Hobj : forall (g : Z -> Z), g 1 = 0 ->
    sumZ (fun e => ew H e * g (connectivity H (fun v => P (f v)) e)) (edges H) =
    sumZ (fun e => ew H' e * g (connectivity H' P e)) (edges H')).
  { intros g Hg. etransitivity; [|exact (eq_sym (coarse_sum (fun l => g (connl P l))))]. apply sumZ_ext. intros e He. rewrite (Hconn e He).
    destruct (1 <? length (cp e))%nat eqn:E; [reflexivity|]. rewrite (Hone e He E), Hg. lia. }
  split; [|split].
  - unfold cut. etransitivity; [|etransitivity; [apply (Hobj (fun c => if 1 <? c then 1 else 0)); reflexivity|]];
      apply sumZ_ext; intros e _; unfold cut_edge; destruct (1 <? connectivity _ _ e); lia.
  - unfold km1, km1_edge. apply (Hobj (fun c => c - 1)). reflexivity.
  - unfold soed. etransitivity; [|etransitivity; [apply (Hobj (fun c => if 1 <? c then c else 0)); reflexivity|]];
      apply sumZ_ext; intros e _; unfold soed_edge; destruct (1 <? connectivity _ _ e); lia.
Qed.

Lemma inc_members c l : (c < nc)%nat -> inc_ok H kInv comm c l ->
  NoDup l /\ (forall e, In e l <-> exists v, In v (nodes H) /\ f v = c /\ In e (inc H v)).
Proof.
  intros Hc Hok.
  assert (Hraw : forall e, In e (raw_inc H kInv comm c) <-> exists v, In v (nodes H) /\ f v = c /\ In e (inc H v)).
  { intros e. unfold raw_inc. rewrite in_flat_map. split.
    - intros [v [Hv He]]. apply filter_In in Hv. destruct Hv as [A B]. apply Nat.eqb_eq in B. exists v. tauto.
    - intros [v [A [B C]]]. exists v. split; [|exact C]. apply filter_In. split; [exact A|apply Nat.eqb_eq; exact B]. }
  destruct Hok as [[l0 [Hp ->]]|[t [border [Hb Hl]]]].
  - split; [apply strict_NoDup, sort_uniq_strict|]. intros e. rewrite sort_uniq_In, <- Hraw.
    split; apply Permutation_in; [exact Hp|apply Permutation_sym; exact Hp].
  - cbn zeta in Hl. set (bk := fun b => sort_uniq (filter (fun e => Nat.eqb (bucket_of t (Z.of_nat e)) b) (raw_inc H kInv comm c))) in *.
    assert (Hbk : forall b e, In e (bk b) <-> In e (raw_inc H kInv comm c) /\ bucket_of t (Z.of_nat e) = b).
    { intros b e. unfold bk. rewrite sort_uniq_In, filter_In, Nat.eqb_eq. reflexivity. }
    assert (Hhigh : NoDup (flat_map bk border) /\
              (forall e, In e (flat_map bk border) <-> exists v, In v (nodes H) /\ f v = c /\ In e (inc H v))).
    { split.
      - assert (Hnb : NoDup border) by (apply (Permutation_NoDup (Permutation_sym Hb)); apply seq_NoDup).
        clear Hb Hl. induction border as [|b r IH]; simpl; [constructor|].
        inversion Hnb as [|? ? Hbn Hrn]; subst. specialize (IH Hrn).
        assert (Hn1 : NoDup (bk b)) by (apply strict_NoDup, sort_uniq_strict).
        assert (Hd : forall e, In e (bk b) -> ~ In e (flat_map bk r)).
        { intros e He Hc2. apply in_flat_map in Hc2. destruct Hc2 as [b' [Hb' He']].
          apply Hbk in He, He'. destruct He as [_ He], He' as [_ He']. apply Hbn. congruence. }
        clear Hbn Hrn Hnb. revert Hn1 Hd. generalize (bk b). intros l0. induction 1 as [|e l1 He Hl1 IH']; intros Hd; simpl; [exact IH|].
        constructor.
        + intros C. apply in_app_or in C. destruct C as [C|C]; [contradiction|]. exact (Hd e (or_introl eq_refl) C).
        + apply IH'. intros e' He'. apply Hd. right. exact He'.
      - intros e. rewrite <- Hraw, in_flat_map. split.
        + intros [b [_ He]]. apply Hbk in He. apply He.
        + intros He. exists (bucket_of t (Z.of_nat e)). split.
          * apply (Permutation_in _ (Permutation_sym Hb)). apply in_seq. pose proof (bucket_of_lt t (Z.of_nat e)). lia.
          * apply Hbk. split; [exact He|reflexivity]. }
    destruct Hhigh as [Hh1 Hh2]. destruct Hl as [->| ->]; [split; assumption|]. split.
    + apply (Permutation_NoDup (Permutation_sym (nsort_perm _))). exact Hh1.
    + intros e. rewrite <- Hh2. split; apply Permutation_in; [|apply Permutation_sym]; apply nsort_perm.
Qed.

(** C20: the coarse hypergraph is well formed, every hyperedge has at least two distinct pins, no two hyperedges
    have the same pins, and the weight of a hyperedge is the sum of the weights of the fine hyperedges that are mapped onto its pin set. *)
Theorem C20_contraction_wellformed :
  wf_hg H' /\
  (forall e, In e (edges H') -> (2 <= length (pins H' e))%nat) /\
  (forall e1 e2, In e1 (edges H') -> In e2 (edges H') -> (forall x, In x (pins H' e1) <-> In x (pins H' e2)) -> e1 = e2) /\
  (forall e', In e' (edges H') ->
     ew H' e' = sumZ (ew H) (filter (fun e => if list_eq_dec Nat.eq_dec (sort_uniq (map f (pins H e))) (pins H' e') then true else false) (edges H))) /\
  (forall e, In e (edges H) -> (exists u v, In u (pins H e) /\ In v (pins H e) /\ f u <> f v) ->
     exists e', In e' (edges H') /\ (forall x, In x (pins H' e') <-> exists v, In v (pins H e) /\ f v = x)).
Proof.
  pose proof (cpre_wf _ _ _ _ _ Hpre) as Hwf.
  assert (Hdist : forall e1 e2, (e1 < m)%nat -> (e2 < m)%nat -> v3 e1 = true -> v3 e2 = true -> cp e1 = cp e2 -> e1 = e2).
  { intros e1 e2 L1 L2 V1 V2. apply (db_distinct _ _ _ _ _ _ _ _ stage3_detected); try assumption; apply filter_In;
      (split; [apply in_seq; lia|apply v3_valid0; assumption]). }
  assert (Hcpid : forall e, In e (edges H) -> cp e = sort_uniq (map f (pins H e))).
  { intros e He. destruct (cpins_spec e He) as [Hst Hi]. apply strict_ext; [exact Hst|apply sort_uniq_strict|].
    intros x. rewrite Hi, sort_uniq_In, in_map_iff. split; intros [v [A B]]; exists v; tauto. }
  split; [|split; [|split; [|split]]].
  - constructor.
    + rewrite contract_unfold. simpl. apply seq_NoDup.
    + rewrite contract_unfold. simpl. apply seq_NoDup.
    + intros e' He'. destruct (coarse_edge e' He') as [e [L [V <-]]]. rewrite coarse_pins by assumption.
      apply strict_NoDup. apply cpins_spec. apply (v3_edge e L V).
    + intros e' x He' Hx. destruct (coarse_edge e' He') as [e [L [V <-]]]. rewrite coarse_pins in Hx by assumption.
      destruct (v3_edge e L V) as [He _]. apply (cpins_spec e He) in Hx. destruct Hx as [v [Hv <-]].
      rewrite contract_unfold. simpl. apply in_seq.
      pose proof (cmap_lt v (wf_pins_nodes H Hwf e v He Hv)). lia.
    + intros c Hc. rewrite contract_unfold in Hc |- *. simpl in Hc |- *. apply in_seq in Hc.
      destruct Hs as [_ [_ [_ [Hinc _]]]]. destruct (inc_members c _ ltac:(lia) (Hinc c ltac:(lia))) as [Hnd Hm].
      apply (Permutation_NoDup (Permutation_sym (remap_list_perm _ _))).
      assert (Hv : forall e, In e (filter v3 (cs_inc s c)) -> v3 e = true) by (intros e He; apply filter_In in He; apply He).
      assert (Hn : NoDup (filter v3 (cs_inc s c))) by (apply NoDup_filter_; exact Hnd).
      revert Hv Hn. generalize (filter v3 (cs_inc s c)). intros l Hv. induction 1 as [|e r He Hr IH]; simpl; constructor.
      * intros C. apply in_map_iff in C. destruct C as [e2 [C1 C2]]. apply He.
        rewrite (rank_inj v3 e e2); [exact C2|apply Hv; left; reflexivity|apply Hv; right; exact C2|congruence].
      * apply IH. intros e2 H2. apply Hv. right. exact H2.
    + intros c e' Hc.
      assert (Hcl : (c < nc)%nat) by (rewrite contract_unfold in Hc; simpl in Hc; apply in_seq in Hc; lia).
      destruct Hs as [_ [_ [_ [Hinc _]]]]. destruct (inc_members c _ Hcl (Hinc c Hcl)) as [_ Hm].
      assert (Hin : In e' (inc H' c) <-> exists e, In e (cs_inc s c) /\ v3 e = true /\ rank v3 e = e').
      { rewrite contract_unfold. cbn [inc]. split.
        - intros Hi. apply (Permutation_in _ (remap_list_perm _ _)) in Hi. apply in_map_iff in Hi.
          destruct Hi as [e [He1 He2]]. apply filter_In in He2. exists e. tauto.
        - intros [e [E1 [E2 E3]]]. apply (Permutation_in _ (Permutation_sym (remap_list_perm _ _))). rewrite <- E3.
          apply in_map. apply filter_In. tauto. }
      rewrite Hin. split.
      * intros [e [E1 [E2 <-]]]. apply Hm in E1. destruct E1 as [v [V1 [V2 V3]]].
        apply (wf_inc H Hwf v e V1) in V3. destruct V3 as [He Hve].
        pose proof (cpre_edges _ _ _ _ _ Hpre e He) as L. split.
        -- rewrite contract_unfold. cbn [edges]. apply in_seq. pose proof (rank_lt v3 e m L E2). lia.
        -- rewrite coarse_pins by assumption. apply (cpins_spec e He). exists v. tauto.
      * intros [He' Hcp]. destruct (coarse_edge e' He') as [e [L [V <-]]]. rewrite coarse_pins in Hcp by assumption.
        destruct (v3_edge e L V) as [He _]. apply (cpins_spec e He) in Hcp. destruct Hcp as [v [Hv1 Hv2]].
        pose proof (wf_pins_nodes H Hwf e v He Hv1) as Hvn.
        exists e. split; [|split; [exact V|reflexivity]]. apply Hm. exists v. split; [exact Hvn|split; [exact Hv2|]].
        apply (wf_inc H Hwf v e Hvn). tauto.
  - intros e' He'. destruct (coarse_edge e' He') as [e [L [V <-]]]. rewrite coarse_pins by assumption.
    destruct (v3_edge e L V). lia.
  - intros e1' e2' H1 H2 Hsame. destruct (coarse_edge e1' H1) as [e1 [L1 [V1 <-]]].
    destruct (coarse_edge e2' H2) as [e2 [L2 [V2 <-]]]. rewrite !coarse_pins in Hsame by assumption. f_equal.
    apply Hdist; try assumption. apply strict_ext; [| |exact Hsame].
    + apply cpins_spec. apply (v3_edge e1 L1 V1).
    + apply cpins_spec. apply (v3_edge e2 L2 V2).
  - intros e' He'. destruct (coarse_edge e' He') as [e [L [V <-]]].
    destruct (v3_edge e L V) as [He Hsz].
    rewrite coarse_ew, coarse_pins by assumption.
    set (phi := fun l => if list_eq_dec Nat.eq_dec l (cp e) then 1 else 0).
    pose proof (stage3_sum phi) as S.
    assert (S1 : sumZ (fun e0 => if v3 e0 then w3 e0 * phi (cp e0) else 0) (seq 0 m) = w3 e).
    { rewrite (sumZ_ext _ (fun x => if Nat.eqb x e then (fun _ => w3 e) x else 0)).
      - rewrite sumZ_indicator by apply seq_NoDup. replace (mem e (seq 0 m)) with true; [reflexivity|].
        symmetry. apply mem_In. apply in_seq. lia.
      - intros x Hx. apply in_seq in Hx. unfold phi. destruct (Nat.eqb_spec x e) as [->|Hne].
        + rewrite V. destruct (list_eq_dec Nat.eq_dec (cp e) (cp e)); [lia|congruence].
        + destruct (v3 x) eqn:Vx; [|reflexivity]. destruct (list_eq_dec Nat.eq_dec (cp x) (cp e)) as [C|C]; [|lia].
          exfalso. apply Hne. apply Hdist; try assumption; lia. }
    rewrite <- S1, S, sumZ_filter.
    rewrite <- (sum_members (edges H) m); [|apply (wf_edges H Hwf)|apply (cpre_edges _ _ _ _ _ Hpre)].
    apply sumZ_ext. intros x _. unfold valid0. destruct (mem_spec x (edges H)) as [Hx|Hx]; simpl; [|reflexivity].
    rewrite <- (Hcpid x Hx). unfold phi. destruct (list_eq_dec Nat.eq_dec (cp x) (cp e)) as [C|C].
    + rewrite C. replace (1 <? length (cp e))%nat with true by (symmetry; apply Nat.ltb_lt; exact Hsz). lia.
    + destruct (1 <? length (cp x))%nat; lia.
  - intros e He [u [v [Hu [Hv Hne]]]].
    pose proof (cpre_edges _ _ _ _ _ Hpre e He) as L.
    destruct (cpins_spec e He) as [Hst Hi].
    assert (Hsz : (1 <? length (cp e))%nat = true).
    { apply Nat.ltb_lt. assert (A : In (f u) (cp e)) by (apply Hi; exists u; tauto).
      assert (B : In (f v) (cp e)) by (apply Hi; exists v; tauto).
      destruct (cp e) as [|x [|y r]]; simpl in *; [tauto| |lia]. exfalso. apply Hne.
      destruct A as [A|[]], B as [B|[]]. congruence. }
    destruct (db_rep _ _ _ _ _ _ _ _ stage3_detected e) as [x [X1 [X2 X3]]].
    { apply filter_In. split; [apply in_seq; lia|]. unfold valid0. rewrite (proj2 (mem_In e (edges H)) He), Hsz. reflexivity. }
    apply filter_In in X1. destruct X1 as [X1 _]. apply in_seq in X1. exists (rank v3 x). split.
    + rewrite contract_unfold. cbn [edges]. apply in_seq. pose proof (rank_lt v3 x m ltac:(lia) X2). lia.
    + rewrite coarse_pins by (try assumption; lia). rewrite X3. exact Hi.
Qed.
End Main.

(** *** Every contraction has an admissible schedule, and a concrete case *)
Definition canon_sched (H : hypergraph) (m kInv : nat) (comm : nat -> nat) : csched :=
  mkCS (nodes H) 2 (seq 0 4)
       (fun b => filter (fun e => valid0 H kInv comm e && Nat.eqb (bucket_of 2 (footprint (cpins H kInv comm e))) b) (seq 0 m))
       (fun c => sort_uniq (raw_inc H kInv comm c)) (seq 0 m).
Lemma canon_sched_ok H n m kInv comm : csched_ok H n m kInv comm (canon_sched H m kInv comm).
Proof.
  split; [|split; [|split; [|split]]]; try apply Permutation_refl.
  - intros b. apply Permutation_refl.
  - intros c _. left. exists (raw_inc H kInv comm c). split; [apply Permutation_refl|reflexivity].
Qed.
(** Nodes 0,1 of the running example are merged (label 2), 2 keeps label 0 and 3 keeps 1: the hyperedges {0,1,2} -> {0,2},
    {2,3} -> {0,1}, {0,3} -> {1,2}; with 0,1 and 2 merged the latter two become parallel and the first disappears. *)
Definition ex_comm1 (v : nat) : nat := match v with 0 => 2 | 1 => 2 | 2 => 0 | _ => 1 end%nat.
Definition ex_comm2 (v : nat) : nat := match v with 3 => 0 | _ => 2 end%nat.
Lemma ex_contract_pre1 : contract_pre exH 4 3 7 ex_comm1.
Proof.
  constructor; [exact exH_wf| | |lia]; simpl.
  - intros v Hv. repeat (destruct Hv as [<-|Hv]; [simpl; lia|]). destruct Hv.
  - intros e He. repeat (destruct He as [<-|He]; [simpl; lia|]). destruct He.
Qed.
Lemma ex_contract_pre2 : contract_pre exH 4 3 7 ex_comm2.
Proof.
  constructor; [exact exH_wf| | |lia]; simpl.
  - intros v Hv. repeat (destruct Hv as [<-|Hv]; [simpl; lia|]). destruct Hv.
  - intros e He. repeat (destruct He as [<-|He]; [simpl; lia|]). destruct He.
Qed.
Example ex_contract :
  let C1 := contract exH 4 3 7 ex_comm1 (canon_sched exH 3 7 ex_comm1) in
  let C2 := contract exH 4 3 7 ex_comm2 (canon_sched exH 3 7 ex_comm2) in
  (nodes C1, map (pins C1) (edges C1), map (ew C1) (edges C1), map (inc C1) (nodes C1), map (nw C1) (nodes C1))
    = ([0;1;2]%nat, [[0;2];[0;1];[1;2]]%nat, [2;3;1], [[0;1];[1;2];[0;2]]%nat, [1;3;3]) /\
  (nodes C2, map (pins C2) (edges C2), map (ew C2) (edges C2), map (inc C2) (nodes C2), map (nw C2) (nodes C2))
    = ([0;1]%nat, [[0;1]]%nat, [4], [[0];[0]]%nat, [3;4]).
Proof. split; vm_compute; reflexivity. Qed.
