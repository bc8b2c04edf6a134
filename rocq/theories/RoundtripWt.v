(** C86: node weights and block weights during batch uncontraction. *)
From Coq Require Import List Arith Lia Bool Permutation Sorted.
From Verif Require Import Base Batch BatchProps INARep INAOps2 RegTree RegTreeSpec RegTreeInv RegTreeInv2 RegTreeForest RegTreeProps
  DynEdge DynEdgeSpec Roundtrip RoundtripInv RoundtripThms.
Import ListNotations.
Local Open Scope nat_scope.

(** the contractions onto [v] that are still in effect before batch [b] *)
Definition onto (par rank : nat -> nat) (b v c : nat) : bool := negb (c =? v) && (par c =? v) && (b <=? rank c).
(** nodes that exist before batch [b] *)
Definition present (par rank : nat -> nat) (b v : nat) : bool := (par v =? v) || (rank v <? b).
(** all uncontractions *)
Definition mementos (V : nat) (asg : nat -> list asn) : list asn := flat_map asg (seq 0 (S V)).

Lemma setf_same {A} (f : nat -> A) a x : setf f a x a = x.
Proof. unfold setf. now rewrite Nat.eqb_refl. Qed.
Lemma setf_other {A} (f : nat -> A) a x b : b <> a -> setf f a x b = f b.
Proof. intros N. unfold setf. now rewrite (proj2 (Nat.eqb_neq _ _) N). Qed.

Definition inlog (l : list (nat * nat)) (v c : nat) : bool := existsb (fun p => (fst p =? v) && (snd p =? c)) l.
Lemma inlog_in l v c : inlog l v c = true <-> In (v, c) l.
Proof.
  unfold inlog. rewrite existsb_exists. split.
  - intros ([a b] & Hi & E). cbn in E. eqb. subst. exact Hi.
  - intros Hi. exists (v, c). cbn. rewrite !Nat.eqb_refl. auto.
Qed.

(** weights at the end of coarsening *)
Lemma contr_weights n mx w0 l e w : contr n mx w0 l e w -> forall v, w v = w0 v + total n (inlog l v) w.
Proof.
  assert (Z : forall n w, total n (fun _ => false) w = 0) by (clear; induction n; intros; cbn; auto; rewrite IHn; lia).
  induction 1 as [|l e w x y C IH Lx Ly N Ex Ey W]; intros v.
  - unfold inlog. cbn. rewrite Z. lia.
  - assert (In0 : forall a c, inlog l a c = true -> e c = false).
    { intros a c H. apply inlog_in in H. apply (C84_weights _ _ _ _ _ _ C). apply in_map_iff. exists (a, c). auto. }
    assert (Split : forall a c, inlog (l ++ [(x, y)]) a c = inlog l a c || ((x =? a) && (y =? c))).
    { intros a c. unfold inlog. rewrite existsb_app. cbn. now rewrite orb_false_r. }
    assert (Old : forall a, total n (inlog l a) (setf w x (w x + w y)) = total n (inlog l a) w).
    { intros a. apply total_ext. intros c _. split; auto. intros H. apply setf_other. intros ->. apply In0 in H. congruence. }
    destruct (Nat.eq_dec v x) as [->|Nv].
    + rewrite setf_same.
      rewrite (total_split n _ _ y Ly); [|rewrite Split, !Nat.eqb_refl; now rewrite orb_true_r].
      rewrite (setf_other w x _ y) by auto.
      rewrite (total_ext n (setf (inlog (l ++ [(x, y)]) x) y false) (inlog l x) _ (setf w x (w x + w y))).
      * rewrite Old. specialize (IH x). lia.
      * intros c _. split; auto. unfold setf. destruct (c =? y) eqn:E; eqb.
        -- subst. destruct (inlog l x y) eqn:F; auto. apply In0 in F. congruence.
        -- rewrite Split. rewrite (proj2 (Nat.eqb_neq y c)) by auto. rewrite andb_false_r, orb_false_r. reflexivity.
    + rewrite setf_other by auto. rewrite (IH v). f_equal. rewrite <- (Old v). apply total_ext. intros c _. split; auto.
      rewrite Split, (proj2 (Nat.eqb_neq x v)) by auto. cbn. now rewrite orb_false_r.
Qed.

Lemma nodup_filter_map (f : asn -> bool) l : NoDup (map a_v l) -> NoDup (map a_v (filter f l)).
Proof.
  induction l as [|x l IH]; cbn; intros ND; [constructor|]. apply NoDup_cons_iff in ND. destruct ND as (N1 & N2).
  destruct (f x); cbn; auto. constructor; auto. intros X. apply N1. apply in_map_iff in X. destruct X as (y & E & Hy).
  apply filter_In in Hy. rewrite <- E. apply in_map. tauto.
Qed.

Section W.
Variables (n mx : nat) (w0 : nat -> nat) (g : G) (pcs : nat -> pc) (bs : nat) (asg : nat -> list asn) (B bidx : nat -> nat).
Hypothesis R : srun n mx w0 (g, pcs).
Hypothesis Q : forall t, pcs t = Idle.
Hypothesis Hbs : 0 < bs.
Hypothesis H : hierarchy (tree_of n g) bs (cv g) asg B.
Hypothesis HI : batch_indices (cv g) asg B bidx.

Notation rank := (rank_of (cv g) B bidx).
Notation all := (mementos (cv g) asg).

Lemma all_in a : In a all -> a_v a < n /\ a_u a = par g (a_v a) /\ par g (a_v a) <> a_v a /\ par g (a_v a) < n.
Proof.
  intros Ha. apply in_flat_map in Ha. destruct Ha as (k & Hk & Ha). apply in_seq in Hk.
  destruct (a_facts n mx w0 g pcs bs asg B bidx R Q Hbs H k a ltac:(lia) Ha) as (_ & L & V & U).
  pose proof (run_inv _ _ _ _ (srun_run _ _ _ _ R)) as I. repeat split; auto; [|apply (i_par _ _ _ _ I _ L)].
  intros E. apply (i_ver _ _ _ _ I) in E. cbn in E. congruence.
Qed.

Lemma all_ex v : v < n -> par g v <> v -> exists a, In a all /\ a_v a = v.
Proof.
  intros L N. pose proof (run_inv _ _ _ _ (srun_run _ _ _ _ R)) as I.
  destruct (ver g v) as [k|] eqn:V; [|apply (i_ver _ _ _ _ I) in V; cbn in V; congruence].
  destruct (a_exists n mx w0 g pcs bs asg B bidx R Q Hbs H v k L V) as (Lk & a & Ha & E). exists a. split; auto.
  apply in_flat_map. exists k. split; auto. apply in_seq. lia.
Qed.

Lemma all_nodup : NoDup (map a_v all).
Proof.
  unfold mementos. assert (X : forall m, m <= S (cv g) -> NoDup (map a_v (flat_map asg (seq 0 m)))); [|apply X; lia].
  induction m as [|m IH]; intros Lm; [constructor|].
  rewrite seq_S, flat_map_app, map_app. cbn [flat_map Nat.add]. rewrite app_nil_r. apply NoDup_app_i; [apply IH; lia| |].
  - destruct (H m ltac:(lia)) as (dist & s & ts & BR & Fi & -> & _).
    destruct (C80_complete _ _ _ _ _ _ (t_forest n mx w0 g pcs R Q) Hbs BR Fi) as (P & _).
    eapply Permutation_NoDup; [symmetry; exact P|]. apply NoDup_filter, seq_NoDup.
  - intros v H1 H2. apply in_map_iff in H1, H2. destruct H1 as (a & Ea & Ha), H2 as (c & Ec & Hc).
    apply in_flat_map in Ha. destruct Ha as (k & Hk & Ha). apply in_seq in Hk.
    destruct (a_facts n mx w0 g pcs bs asg B bidx R Q Hbs H k a ltac:(lia) Ha) as (_ & _ & V1 & _).
    destruct (a_facts n mx w0 g pcs bs asg B bidx R Q Hbs H m c ltac:(lia) Hc) as (_ & _ & V2 & _).
    rewrite Ea in V1. rewrite Ec in V2. rewrite V1 in V2. injection V2 as ->. lia.
Qed.

Lemma wt_tree v : wt g v = w0 v + total n (onto (par g) rank 0 v) (wt g).
Proof.
  pose proof (run_inv _ _ _ _ (srun_run _ _ _ _ R)) as I.
  rewrite (contr_weights _ _ _ _ _ _ (i_log _ _ _ _ I) v) at 1. f_equal. apply total_ext. intros c Lc. split; auto.
  unfold onto. cbn [Nat.leb]. rewrite andb_true_r. apply eq_true_iff_eq. rewrite inlog_in, (i_log2 _ _ _ _ I).
  destruct (proj1 (proj2 (C84_tree n mx w0 g pcs R Q)) c Lc) as (D1 & D2). cbn [fst]. split.
  - intros (E & <-). specialize (D2 E). apply andb_true_iff. split; [apply negb_true_iff, Nat.eqb_neq; auto|apply Nat.eqb_refl].
  - intros E. eqb. split; [apply D1|]; congruence.
Qed.

(** children are uncontracted after their parent *)
Lemma onto_shift b v c : b <= rank v -> v < n -> c < n -> par g v <> v -> onto (par g) rank b v c = onto (par g) rank 0 v c.
Proof.
  intros Lb Lv Lc N. unfold onto. destruct (negb (c =? v) && (par g c =? v)) eqn:E; auto. cbn [andb]. eqb.
  assert (Ep : par g c = v) by assumption.
  destruct (par_rank n mx w0 g pcs bs asg B bidx R Q Hbs H HI c Lc) as [X|X]; [congruence|congruence|].
  rewrite Ep in X. transitivity true; [|symmetry]; apply Nat.leb_le; lia.
Qed.

(** state within a batch: the nodes [ds] are already uncontracted *)
Definition mid (b : nat) (ds : list nat) (w : nat -> nat) : Prop :=
  forall v, v < n -> w v = w0 v + total n (fun c => onto (par g) rank b v c && negb (existsb (Nat.eqb c) ds)) (wt g).

Lemma mid_step b ds w a : mid b ds w -> In a all -> rank (a_v a) = b -> ~ In (a_v a) ds -> (forall d, In d ds -> rank d = b) ->
  mid b (a_v a :: ds) (unweigh w a) /\ w (a_v a) <= w (a_u a).
Proof.
  intros M Ha Ra Nd Rd. destruct (all_in a Ha) as (Lv & Eu & N & Lu). set (c := a_v a) in *.
  assert (Wc : w c = wt g c).
  { rewrite (M c Lv), (wt_tree c). f_equal. apply total_ext. intros z Lz. split; auto.
    rewrite (onto_shift b c z) by (auto; lia). destruct (onto (par g) rank 0 c z) eqn:O; auto. cbn [andb].
    destruct (existsb (Nat.eqb z) ds) eqn:X; auto. exfalso. apply existsb_exists in X. destruct X as (z' & Hz & E). eqb. subst z'.
    unfold onto in O. eqb. assert (Ep : par g z = c) by assumption.
    destruct (par_rank n mx w0 g pcs bs asg B bidx R Q Hbs H HI z Lz) as [Y|Y]; [congruence|congruence|].
    rewrite Ep in Y. specialize (Rd z Hz). lia. }
  assert (S : total n (fun z => onto (par g) rank b (a_u a) z && negb (existsb (Nat.eqb z) ds)) (wt g) =
    total n (fun z => onto (par g) rank b (a_u a) z && negb (existsb (Nat.eqb z) (c :: ds))) (wt g) + wt g c).
  { rewrite (total_split n _ (wt g) c Lv).
    - f_equal. apply total_ext. intros z _. split; auto. unfold setf. cbn [existsb]. destruct (z =? c); cbn; auto. now rewrite andb_false_r.
    - unfold onto. rewrite Eu, Nat.eqb_refl, Ra, Nat.leb_refl. rewrite (proj2 (Nat.eqb_neq _ _)) by auto. cbn.
      destruct (existsb (Nat.eqb c) ds) eqn:X; auto. exfalso. apply existsb_exists in X. destruct X as (z & Hz & E). eqb. subst z. auto. }
  pose proof (M (a_u a)) as Mu. rewrite Eu in Mu at 1. specialize (Mu Lu).
  split; [|lia]. intros v Hv. unfold unweigh. destruct (Nat.eq_dec v (a_u a)) as [->|Nv].
  - rewrite setf_same. fold c. lia.
  - rewrite setf_other by auto. rewrite (M v Hv). f_equal. apply total_ext. intros z _. split; auto. cbn [existsb].
    destruct (z =? c) eqn:E; auto. eqb. subst z. unfold onto. rewrite Eu in Nv. rewrite (proj2 (Nat.eqb_neq (par g c) v)) by auto.
    rewrite andb_false_r. reflexivity.
Qed.

Lemma mid_fold b os : forall ds w, mid b ds w -> (forall a, In a os -> In a all /\ rank (a_v a) = b) -> NoDup (map a_v os) ->
  (forall d, In d ds -> rank d = b) -> (forall a, In a os -> ~ In (a_v a) ds) ->
  exists ds', mid b ds' (fold_left unweigh os w) /\ forall z, In z ds' <-> In z ds \/ In z (map a_v os).
Proof.
  induction os as [|a os IH]; intros ds w M Ho ND Rd Nd; cbn; [exists ds; split; auto; tauto|].
  cbn in ND. apply NoDup_cons_iff in ND. destruct ND as (Na & ND). destruct (Ho a (or_introl eq_refl)) as (Ha & Ra).
  destruct (mid_step b ds w a M Ha Ra (Nd a (or_introl eq_refl)) Rd) as (M' & _).
  destruct (IH _ _ M') as (ds' & M2 & Hd).
  - intros; apply Ho; right; auto.
  - exact ND.
  - intros d [<-|Hd]; auto.
  - intros c Hc [E|Hd]; [apply Na; rewrite E; apply in_map; auto|exact (Nd c (or_intror Hc) Hd)].
  - exists ds'. split; [exact M2|]. intros z. rewrite Hd. cbn. tauto.
Qed.

Lemma batch_os b os : Permutation os (filter (fun a => rank (a_v a) =? b) all) ->
  (forall a, In a os <-> In a all /\ rank (a_v a) = b) /\ NoDup (map a_v os).
Proof.
  intros P. split.
  - intros a. assert (E : In a os <-> In a (filter (fun a => rank (a_v a) =? b) all)) by (split; apply Permutation_in; [|symmetry]; exact P).
    rewrite E, filter_In, Nat.eqb_eq. reflexivity.
  - apply (Permutation_NoDup (l := map a_v (filter (fun a => rank (a_v a) =? b) all))); [symmetry; apply Permutation_map; exact P|].
    apply nodup_filter_map, all_nodup.
Qed.

Lemma wrun_mid b w : wrun rank all (wt g) b w -> mid b [] w.
Proof.
  induction 1 as [|b w os WR IH P].
  - intros v Lv. rewrite (wt_tree v) at 1. f_equal. apply total_ext. intros c _. split; auto. cbn. now rewrite andb_true_r.
  - destruct (batch_os b os P) as (Ho & ND).
    destruct (mid_fold b os [] w IH (fun a Ha => proj1 (Ho a) Ha) ND) as (ds & M & Hd); [intros d []|intros a _ []|].
    intros v Lv. rewrite (M v Lv). f_equal. apply total_ext. intros c Lc. split; auto. cbn [existsb negb]. rewrite andb_true_r.
    unfold onto. destruct (negb (c =? v) && (par g c =? v)) eqn:E; auto. cbn [andb]. eqb.
    apply eq_true_iff_eq. rewrite andb_true_iff, negb_true_iff, !Nat.leb_le. split.
    + intros (L & X). destruct (Nat.eq_dec (rank c) b) as [F|F]; [|lia]. exfalso.
      assert (Y : existsb (Nat.eqb c) ds = true); [|congruence]. apply existsb_exists. exists c. rewrite Nat.eqb_refl. split; auto.
      apply Hd. right. destruct (all_ex c Lc) as (a & Ha & Ea); [congruence|]. rewrite <- Ea. apply in_map. apply Ho. rewrite Ea. auto.
    + intros L. split; [lia|]. destruct (existsb (Nat.eqb c) ds) eqn:X; auto. apply existsb_exists in X. destruct X as (z & Hz & F). eqb. subst z.
      apply Hd in Hz. destruct Hz as [[]|Hz]. apply in_map_iff in Hz. destruct Hz as (a & Ea & Ha). apply Ho in Ha. destruct Ha as (_ & Ha). rewrite Ea in Ha. lia.
Qed.

Lemma wrun_absent b w c : wrun rank all (wt g) b w -> c < n -> par g c <> c -> b <= rank c -> w c = wt g c.
Proof.
  intros WR Lc N Lb. rewrite (wrun_mid b w WR c Lc), (wt_tree c). f_equal. apply total_ext. intros z Lz. split; auto.
  cbn [existsb negb]. rewrite andb_true_r. now apply onto_shift.
Qed.

(** Before every batch the weight of a node is its original weight and the
    weights of the nodes that are still contracted onto it. *)
Theorem C86_node_weights b w : wrun rank all (wt g) b w ->
  forall v, v < n -> w v = w0 v + total n (onto (par g) rank b v) w.
Proof.
  intros WR v Lv. rewrite (wrun_mid b w WR v Lv). f_equal. apply total_ext. intros c Lc.
  cbn [existsb negb]. rewrite andb_true_r. split; auto. intros O. symmetry. unfold onto in O. eqb. apply (wrun_absent b); auto. congruence.
Qed.

(** After the last batch the weights are the original ones. *)
Theorem C86_weights_restored b w : wrun rank all (wt g) b w -> below B (S (cv g)) <= b -> forall v, v < n -> w v = w0 v.
Proof.
  intros WR Lb v Lv. rewrite (C86_node_weights b w WR v Lv).
  rewrite (total_ext n _ (fun _ => false) w w).
  - assert (Z : forall m, total m (fun _ => false) w = 0) by (induction m as [|m IHm]; cbn [total]; [reflexivity|rewrite IHm; reflexivity]). rewrite Z. lia.
  - intros c Lc. split; auto. unfold onto. destruct (negb (c =? v) && (par g c =? v)) eqn:E; auto. cbn [andb]. eqb.
    pose proof (node_rank n mx w0 g pcs bs asg B bidx R Q Hbs H HI c Lc ltac:(congruence)). apply Nat.leb_gt. lia.
Qed.

(** A batch changes no block weight, if every node starts in the block of its
    representative (partitioned_hypergraph.h:415-422). *)
Theorem C86_block_weights b w os part blk : wrun rank all (wt g) b w ->
  Permutation os (filter (fun a => rank (a_v a) =? b) all) ->
  total n (fun v => present (par g) rank (S b) v && (setparts rank b (par g) part v =? blk)) (fold_left unweigh os w) =
  total n (fun v => present (par g) rank b v && (part v =? blk)) w.
Proof.
  intros WR P. destruct (batch_os b os P) as (Ho & ND). set (part' := setparts rank b (par g) part).
  assert (Hp : forall v, present (par g) rank b v = true -> part' v = part v).
  { intros v Hv. unfold part', setparts, present in *. destruct (_ =? b) eqn:E; auto. apply orb_true_iff in Hv. destruct Hv as [Hv|Hv]; eqb; [congruence|lia]. }
  assert (F : forall os ds w, mid b ds w -> (forall a, In a os -> In a all /\ rank (a_v a) = b) -> NoDup (map a_v os) ->
    (forall d, In d ds -> rank d = b) -> (forall a, In a os -> ~ In (a_v a) ds) ->
    total n (fun v => (present (par g) rank b v || existsb (Nat.eqb v) ds || existsb (Nat.eqb v) (map a_v os)) && (part' v =? blk)) (fold_left unweigh os w) =
    total n (fun v => (present (par g) rank b v || existsb (Nat.eqb v) ds) && (part' v =? blk)) w).
  { clear - R Q Hbs H HI Hp. induction os as [|a os IH]; intros ds w M Ho ND Rd Nd; cbn [map fold_left].
    - apply total_ext. intros v _. cbn [existsb]. rewrite orb_false_r. auto.
    - cbn [map] in ND. apply NoDup_cons_iff in ND. destruct ND as (Na & ND). destruct (Ho a (or_introl eq_refl)) as (Ha & Ra).
      destruct (mid_step b ds w a M Ha Ra (Nd a (or_introl eq_refl)) Rd) as (M' & Le).
      destruct (all_in a Ha) as (Lv & Eu & N & Lu). set (c := a_v a) in *.
      rewrite (total_ext n _ (fun v => (present (par g) rank b v || existsb (Nat.eqb v) (c :: ds) || existsb (Nat.eqb v) (map a_v os)) && (part' v =? blk))
        _ (fold_left unweigh os (unweigh w a))).
      2:{ intros v _. split; auto. cbn [existsb]. f_equal. destruct (present _ _ _ _), (v =? c), (existsb _ ds), (existsb _ (map a_v os)); reflexivity. }
      rewrite IH; auto.
      2:{ intros; apply Ho; right; auto. }
      2:{ intros d [<-|Hd]; auto. }
      2:{ intros z Hz [E|Hd]; [apply Na; fold c; rewrite E; apply in_map; auto|exact (Nd z (or_intror Hz) Hd)]. }
      assert (Pu : present (par g) rank b (a_u a) = true).
      { unfold present. rewrite Eu. apply orb_true_iff.
        destruct (par_rank n mx w0 g pcs bs asg B bidx R Q Hbs H HI c Lv N) as [X|X]; [left; now apply Nat.eqb_eq|right; apply Nat.ltb_lt; lia]. }
      assert (Pc : part' c = part' (a_u a)).
      { rewrite (Hp _ Pu). unfold part', setparts. fold c in Ra. rewrite Ra, Nat.eqb_refl, Eu. reflexivity. }
      assert (Nc : present (par g) rank b c = false).
      { unfold present. rewrite (proj2 (Nat.eqb_neq _ _) N). apply Nat.ltb_ge. fold c in Ra. lia. }
      assert (Ndc : existsb (Nat.eqb c) ds = false).
      { destruct (existsb (Nat.eqb c) ds) eqn:X; auto. exfalso. apply existsb_exists in X. destruct X as (z & Hz & E). eqb. subst z.
        exact (Nd a (or_introl eq_refl) Hz). }
      destruct (part' (a_u a) =? blk) eqn:Eb.
      + set (E := fun v => (present (par g) rank b v || existsb (Nat.eqb v) (c :: ds)) && (part' v =? blk)).
        rewrite <- (total_merge n E (unweigh w a) (a_u a) c); auto.
        * apply total_ext. intros v _. split.
          -- unfold E, setf. cbn [existsb]. destruct (v =? c) eqn:Ev; cbn [orb]; auto. apply Nat.eqb_eq in Ev. subst v. rewrite Nc, Ndc. reflexivity.
          -- intros _. unfold unweigh. fold c. unfold setf. rewrite (proj2 (Nat.eqb_neq c (a_u a))) by congruence.
             rewrite Nat.eqb_refl. destruct (v =? a_u a) eqn:Ev; auto. apply Nat.eqb_eq in Ev. subst v. fold c in Le. lia.
        * rewrite Eu. exact Lu.
        * congruence.
        * unfold E. rewrite Pu, Eb. reflexivity.
        * unfold E. rewrite Pc, Eb. cbn [existsb]. rewrite Nat.eqb_refl. cbn. now rewrite orb_true_r.
      + apply total_ext. intros v _. split.
        * cbn [existsb]. destruct (v =? c) eqn:Ev; cbn [orb]; auto. apply Nat.eqb_eq in Ev. subst v. rewrite Pc, Eb, !andb_false_r. reflexivity.
        * intros Hv. unfold unweigh. apply setf_other. intros ->. rewrite Eb, andb_false_r in Hv. discriminate. }
  specialize (F os [] w (wrun_mid b w WR) (fun a Ha => proj1 (Ho a) Ha) ND).
  rewrite (total_ext n _ (fun v => (present (par g) rank b v || existsb (Nat.eqb v) [] || existsb (Nat.eqb v) (map a_v os)) && (part' v =? blk))
     _ (fold_left unweigh os w)).
  - rewrite F; [|intros d []|intros a _ []]. apply total_ext. intros v _. cbn [existsb]. rewrite orb_false_r. split; auto.
    destruct (present (par g) rank b v) eqn:E; auto. now rewrite (Hp v E).
  - intros v Lv. split; auto. cbn [existsb]. rewrite orb_false_r. f_equal. apply eq_true_iff_eq.
    unfold present. rewrite !orb_true_iff, !Nat.ltb_lt, Nat.eqb_eq, existsb_exists. split.
    + intros [X|X]; [auto|]. destruct (Nat.eq_dec (par g v) v) as [Y|Y]; [auto|]. destruct (Nat.eq_dec (rank v) b) as [Z|Z]; [right|left; right; lia].
      exists v. split; [|apply Nat.eqb_refl]. destruct (all_ex v Lv Y) as (a & Ha & <-). apply in_map. apply Ho. auto.
    + intros [[X|X]|(z & Hz & E)]; [auto|right; lia|]. eqb. subst z. apply in_map_iff in Hz. destruct Hz as (a & Ea & Ha). apply Ho in Ha. rewrite Ea in Ha. right. lia.
Qed.
End W.
