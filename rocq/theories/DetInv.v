(** DetInv.v - one sub-round of the deterministic coarsener preserves the invariant SI (DetCoarseThms.v). *)
From Coq Require Import FunctionalExtensionality.
From Verif Require Import Base Spec SpecLemmas ParLoop DetCoarse DetPhases DetPhases2 DetPhases3 DetCoarseThms.
Set Default Proof Using "All".

Section Inv.
Variables (H : hypergraph) (p : dparams).
Local Notation w := (nw H).
Local Notation N := (nodes H).
Hypothesis WF : wf_hg H.
Hypothesis Wpos : forall x, In x N -> 0 < w x.
Variables (rng pend : list nat) (c : dcore) (f : dfix).
Hypothesis HSI : SI H p (rng ++ pend) c.
Hypothesis NDr : NoDup (rng ++ pend).
Variables (P : nat -> nat) (O : nat -> Z).
Hypothesis PR : proposals H p rng c f P O.
Let k2 := set_opp (set_prop c P) O.
Let k3 := c3 H p rng k2.
Variable hl : list nat.
Hypothesis Hhl : content (hvy k3) hl.
Hypothesis Shl : StronglySorted (hlt H P) hl.
Local Notation lt := (light p O).
Local Notation ask := (asks P rng).
Lemma NDN : NoDup N. Proof. apply (wf_nodes H WF). Qed.
Lemma NDg : NoDup rng. Proof. apply (NDrng rng pend NDr). Qed.
Lemma rin u : In u rng -> In u N /\ clu c u = u /\ prop c u = u.
Proof. intros Hu. apply (si_pend _ _ _ _ HSI). apply in_or_app. left. exact Hu. Qed.
Lemma ask_spec u t : ask u t = true <-> In u rng /\ P u <> u /\ P u = t.
Proof. unfold asks, mv. rewrite !andb_true_iff, mem_In, negb_true_iff, Nat.eqb_neq, Nat.eqb_eq. tauto. Qed.
(** What a proposal guarantees. *)
Lemma ask_ok u : In u rng -> P u <> u -> cwt c u = w u /\ (exists v, In v N /\ clu c v = P u) /\ com p (P u) = com p u /\
  cwt c (P u) + w u <= maxw p /\ (hasf p = true -> accept H p f (P u) u = true).
Proof.
  intros Hu Ne. destruct (pr_in _ _ _ _ _ _ _ PR u Hu) as [E|[A [B C]]]; [contradiction|].
  apply feasible_spec in C. destruct C as [_ [C1 [C2 C3]]]. auto.
Qed.
Lemma node_w x : In x N -> cwt c (clu c x) = cweight H c (clu c x) /\ opp c (clu c x) = cwt c (clu c x).
Proof. intros Hx. apply (si_w _ _ _ _ HSI x Hx). Qed.
Definition J0 (t : nat) : Z := sumZ (fun u => if ask u t then w u else 0) N.
Definition pb (t : nat) : bool := existsb (fun u => ask u t) rng.
Lemma pb_spec t : pb t = true <-> exists u, In u rng /\ P u <> u /\ P u = t.
Proof.
  unfold pb. rewrite existsb_exists. split; [intros [u [_ Hu]]; exists u; apply ask_spec; exact Hu|].
  intros [u Hu]. exists u. split; [apply Hu|apply ask_spec; exact Hu].
Qed.
Lemma pb_false t u : pb t = false -> ask u t = false.
Proof.
  intros Hp. destruct (ask u t) eqn:E; [|reflexivity]. apply ask_spec in E.
  assert (pb t = true) by (apply pb_spec; exists u; exact E). congruence.
Qed.
Lemma J0_zero t : pb t = false -> J0 t = 0.
Proof. intros Hp. unfold J0. apply sumZ_zero. intros u _. rewrite (pb_false t u Hp). reflexivity. Qed.
Lemma J0_pos t : pb t = true -> 0 < J0 t.
Proof.
  intros Hp. apply pb_spec in Hp. destruct Hp as [u [Hu [Ne Et]]].
  assert (HuN : In u N) by apply (rin u Hu). pose proof (Wpos u HuN).
  assert (L : (fun u => if ask u t then w u else 0) u <= J0 t).
  { apply (sumZ_member_le (fun u => if ask u t then w u else 0)); [|exact HuN]. intros y Hy. pose proof (Wpos y Hy). destruct (ask y t); lia. }
  cbn in L. assert (A : ask u t = true) by (apply ask_spec; auto). rewrite A in L. lia.
Qed.
Lemma O_eq t : O t = opp c t + J0 t.
Proof. apply (pr_opp _ _ _ _ _ _ _ PR). Qed.
(** A cluster somebody asks for is not empty. *)
Lemma asked_w t : pb t = true -> cwt c t = cweight H c t /\ opp c t = cwt c t /\ In t N.
Proof.
  intros Hp. apply pb_spec in Hp. destruct Hp as [u [Hu [Ne Et]]]. destruct (ask_ok u Hu Ne) as [_ [[v [Hv Ev]] _]].
  rewrite Et in Ev. rewrite <- Ev. destruct (node_w v Hv) as [A B]. split; [exact A|]. split; [exact B|]. apply (si_clu _ _ _ _ HSI v Hv).
Qed.
(** ** The vector of nodes in too heavy clusters *)
Lemma hl_in x : In x hl <-> In x rng /\ P x <> x /\ lt (P x) = false.
Proof.
  rewrite (count_occ_In Nat.eq_dec hl x), Hhl. unfold k3, c3, k2. cbn [hvy cl3 prop opp set_opp set_prop].
  rewrite (si_hvy _ _ _ _ HSI x). unfold mv.
  destruct (Nat.eqb_spec (P x) x) as [E|E]; cbn [negb andb]; [split; [lia|tauto]|].
  destruct (lt (P x)); cbn [negb]; [split; [lia|intros [_ [_ D]]; discriminate]|].
  rewrite Nat.add_0_l. change (count_occ Nat.eq_dec rng x > 0)%nat with (count_occ Nat.eq_dec rng x > 0)%nat.
  rewrite <- (count_occ_In Nat.eq_dec rng x). tauto.
Qed.
Lemma hl_nodup : NoDup hl.
Proof.
  apply (NoDup_count_occ Nat.eq_dec). intros x. rewrite Hhl. unfold k3, c3, k2. cbn [hvy cl3 prop opp set_opp set_prop].
  rewrite (si_hvy _ _ _ _ HSI x). pose proof (proj1 (NoDup_count_occ Nat.eq_dec rng) NDg x). destruct (_ && _); lia.
Qed.
Lemma hl_cont t : exists pre post, hl = pre ++ grp hl P t ++ post /\ (forall v, In v pre -> P v <> t) /\ (forall v, In v post -> P v <> t).
Proof.
  apply filter_contig. eapply ssorted_weaken; [|exact Shl]. intros a b [L|[E _]]; lia.
Qed.
Let W := cwt k3.
Lemma grp_ne t : grp hl P t <> [] -> pb t = true /\ lt t = false.
Proof.
  intros G. destruct (grp hl P t) as [|x g] eqn:E; [congruence|].
  assert (Hx : In x (grp hl P t)) by (rewrite E; left; reflexivity). unfold grp in Hx. apply filter_In in Hx. destruct Hx as [Hx Et].
  apply Nat.eqb_eq in Et. apply hl_in in Hx. split; [apply pb_spec; exists x; tauto|]. rewrite <- Et. tauto.
Qed.
Lemma W_heavy t : lt t = false -> W t = cwt c t.
Proof. intros L. unfold W, k3, c3, k2. cbn [cwt cl3 prop opp set_opp set_prop]. rewrite L. reflexivity. Qed.
Lemma grp_sum t : lt t = false -> sumZ w (grp hl P t) = J0 t.
Proof.
  intros L. unfold J0. transitivity (sumZ w (filter (fun u => ask u t) N)); [|rewrite sumZ_filter; reflexivity].
  apply sumZ_perm. apply NoDup_Permutation; [apply NoDup_filter_; apply hl_nodup|apply NoDup_filter_; apply NDN|].
  intros x. unfold grp. rewrite !filter_In, hl_in, Nat.eqb_eq, ask_spec. split.
  - intros [[A [B C]] E]. split; [apply (rin x A)|auto].
  - intros [A [B [C E]]]. split; [|exact E]. split; [exact B|]. split; [exact C|]. rewrite E. exact L.
Qed.
Lemma K1 t : grp hl P t <> [] -> maxw p < W t + sumZ w (grp hl P t).
Proof.
  intros G. destruct (grp_ne t G) as [Hp L]. rewrite (W_heavy t L), (grp_sum t L). destruct (asked_w t Hp) as [_ [E _]].
  pose proof (O_eq t) as EO. unfold light in L. apply Z.leb_gt in L. lia.
Qed.
(** At least one request for a too heavy cluster is granted. *)
Lemma zt_gt t : grp hl P t <> [] -> cwt c t < zt H p hl P W t.
Proof.
  intros G. destruct (grp_ne t G) as [Hp L]. unfold zt. destruct (grp hl P t) as [|x g] eqn:E; [congruence|].
  assert (Hx : In x (grp hl P t)) by (rewrite E; left; reflexivity). unfold grp in Hx. apply filter_In in Hx. destruct Hx as [Hx Et].
  apply Nat.eqb_eq in Et. apply hl_in in Hx. destruct Hx as [Hr [Ne _]]. destruct (ask_ok x Hr Ne) as [_ [_ [_ [Le _]]]]. rewrite Et in Le.
  cbn [appr]. rewrite (W_heavy t L). destruct (Z.ltb_spec (maxw p) (cwt c t + w x)); [lia|]. cbn [snd]. rewrite appr_sum.
  pose proof (Wpos x (proj1 (rin x Hr))). assert (0 <= sumZ w (fst (appr w (maxw p) g (cwt c t + w x)))); [|lia].
  apply sumZ_nonneg. intros y Hy. apply appr_incl in Hy.
  assert (Hy' : In y (grp hl P t)) by (rewrite E; right; exact Hy). unfold grp in Hy'. apply filter_In in Hy'. destruct Hy' as [Hy' _].
  apply hl_in in Hy'. pose proof (Wpos y (proj1 (rin y (proj1 Hy')))). lia.
Qed.
Lemma mover_w u : In u rng -> P u <> u -> cwt c u = w u /\ opp c u = w u.
Proof.
  intros Hu Ne. destruct (ask_ok u Hu Ne) as [E _]. split; [exact E|]. destruct (rin u Hu) as [HN [Ec _]].
  destruct (node_w u HN) as [_ B]. rewrite Ec in B. lia.
Qed.
Lemma K2 v : In v hl -> grp hl P v <> [] -> O v <> w v /\ zt H p hl P W v <> w v.
Proof.
  intros Hv G. apply hl_in in Hv. destruct Hv as [Hr [Ne _]]. destruct (mover_w v Hr Ne) as [E1 E2].
  destruct (grp_ne v G) as [Hp _]. pose proof (J0_pos v Hp). pose proof (O_eq v). pose proof (zt_gt v G). split; lia.
Qed.
Let k4 := cl4 H p hl P O W k3.
Let k5 := c5 H k4.

(** ** Who joins which cluster *)
Definition app_ (x : nat) : bool := mem x rng && mv P x && (lt (P x) || mem x (ap H p hl P W (P x))).
Lemma app_spec x : app_ x = true -> In x rng /\ P x <> x.
Proof. unfold app_, mv. rewrite !andb_true_iff, mem_In, negb_true_iff, Nat.eqb_neq. tauto. Qed.
Lemma clu4 x : clu k4 x = if app_ x then P x else clu c x.
Proof.
  unfold k4, k3, c3, k2, app_. cbn [clu cl4 cl3 prop opp set_opp set_prop].
  destruct (mem_spec x (ap H p hl P W (P x))) as [Hx|Hx].
  - destruct (ap_in H p hl P W (fun t => P t) x) as [Hh _] || idtac.
    assert (Hh : In x hl) by (apply appr_incl in Hx; unfold grp in Hx; apply filter_In in Hx; apply Hx).
    apply hl_in in Hh. destruct Hh as [Hr [Ne L]]. destruct (mem_spec x rng); [|contradiction]. unfold mv.
    destruct (Nat.eqb_spec (P x) x); [contradiction|]. cbn. rewrite orb_true_r. reflexivity.
  - rewrite orb_false_r. reflexivity.
Qed.
Definition J (t : nat) : Z := sumZ (fun x => if app_ x && Nat.eqb (P x) t then w x else 0) N.
Lemma J_nopb t : pb t = false -> J t = 0.
Proof.
  intros Hp. unfold J. apply sumZ_zero. intros x _. destruct (app_ x) eqn:A; [|reflexivity]. apply app_spec in A. cbn.
  destruct (Nat.eqb_spec (P x) t) as [E|]; [|reflexivity]. exfalso.
  assert (pb t = true) by (apply pb_spec; exists x; tauto). congruence.
Qed.
Lemma J_light t : lt t = true -> J t = J0 t.
Proof.
  intros L. unfold J, J0. apply sumZ_ext. intros x _. unfold app_, asks. destruct (Nat.eqb_spec (P x) t) as [E|]; [|rewrite !andb_false_r; reflexivity].
  rewrite E, L. cbn. rewrite !andb_true_r. reflexivity.
Qed.
Lemma J_heavy t : lt t = false -> J t = sumZ w (ap H p hl P W t).
Proof.
  intros L. unfold J. transitivity (sumZ w (filter (fun x => mem x (ap H p hl P W t)) N)).
  - rewrite sumZ_filter. apply sumZ_ext. intros x _. unfold app_. destruct (mem_spec x (ap H p hl P W t)) as [Hx|Hx].
    + assert (Hx' := Hx). apply appr_incl in Hx'. unfold grp in Hx'. apply filter_In in Hx'. destruct Hx' as [Hh Et]. apply Nat.eqb_eq in Et.
      apply hl_in in Hh. destruct Hh as [Hr [Ne _]]. rewrite Et, Nat.eqb_refl. destruct (mem_spec x rng); [|contradiction]. unfold mv.
      destruct (Nat.eqb_spec (P x) x); [contradiction|]. destruct (mem_spec x (ap H p hl P W t)); [|contradiction].
      cbn. rewrite orb_true_r. reflexivity.
    + destruct (Nat.eqb_spec (P x) t) as [E|]; [|rewrite andb_false_r; reflexivity]. rewrite E, L.
      destruct (mem_spec x (ap H p hl P W t)); [contradiction|]. rewrite orb_false_r, andb_false_r. reflexivity.
  - symmetry. apply sumZ_perm. apply NoDup_Permutation; [apply (ap_nodup H p hl P O W); [apply hl_nodup|apply hl_cont|apply K1|apply K2]|apply NoDup_filter_; apply NDN|].
    intros x. rewrite filter_In, mem_In. split; [|tauto]. intros Hx. split; [|exact Hx].
    apply appr_incl in Hx. unfold grp in Hx. apply filter_In in Hx. destruct Hx as [Hh _]. apply hl_in in Hh. apply (rin x (proj1 Hh)).
Qed.
Lemma hl_ex t : existsb (fun v => Nat.eqb (P v) t) hl = pb t && negb (lt t).
Proof.
  apply Bool.eq_iff_eq_true. rewrite existsb_exists, andb_true_iff, negb_true_iff, pb_spec. split.
  - intros [v [Hv E]]. apply Nat.eqb_eq in E. apply hl_in in Hv. rewrite <- E. split; [exists v; tauto|tauto].
  - intros [[u [Hu [Ne E]]] L]. exists u. split; [apply hl_in; split; [exact Hu|split; [exact Ne|rewrite E; exact L]]|apply Nat.eqb_eq; exact E].
Qed.
Lemma rng_ex t : existsb (fun u => mv P u && Nat.eqb (P u) t) rng = pb t.
Proof.
  apply Bool.eq_iff_eq_true. rewrite existsb_exists, pb_spec. split.
  - intros [u [Hu E]]. exists u. unfold mv in E. rewrite andb_true_iff, negb_true_iff, Nat.eqb_neq, Nat.eqb_eq in E. tauto.
  - intros [u [Hu E]]. exists u. split; [exact Hu|]. unfold mv. rewrite andb_true_iff, negb_true_iff, Nat.eqb_neq, Nat.eqb_eq. exact E.
Qed.
(** Weights after loop 4 of a cluster which was not empty. *)
Lemma grp_of t : pb t = true -> lt t = false -> grp hl P t <> [].
Proof.
  intros Hp L G. apply pb_spec in Hp. destruct Hp as [u [Hu [Ne E]]].
  assert (Hg : In u (grp hl P t)) by (unfold grp; apply filter_In; split; [apply hl_in; split; [exact Hu|split; [exact Ne|rewrite E; exact L]]|apply Nat.eqb_eq; exact E]).
  rewrite G in Hg. destruct Hg.
Qed.
Lemma cwt4 t : opp c t = cwt c t -> cwt k4 t = cwt c t + J t /\ opp k4 t = cwt c t + J t.
Proof.
  intros Eo. unfold k4. cbn [cwt opp cl4]. rewrite hl_ex. unfold k3, c3, k2. cbn [cwt opp cl3 prop set_opp set_prop]. rewrite rng_ex.
  destruct (pb t) eqn:Hp; cbn [andb].
  - destruct (lt t) eqn:L; cbn [negb andb].
    + rewrite (J_light t L). pose proof (O_eq t). split; lia.
    + rewrite (J_heavy t L). unfold zt. rewrite appr_sum. fold (ap H p hl P W t). rewrite (W_heavy t L). split; reflexivity.
  - rewrite andb_false_r. rewrite (J_nopb t Hp). pose proof (O_eq t) as E. rewrite (J0_zero t Hp) in E. split; lia.
Qed.
Lemma J_pos t : pb t = true -> 0 < J t.
Proof.
  intros Hp. destruct (lt t) eqn:L; [rewrite (J_light t L); apply J0_pos; exact Hp|].
  rewrite (J_heavy t L). pose proof (zt_gt t (grp_of t Hp L)) as Z. unfold zt in Z. rewrite appr_sum, (W_heavy t L) in Z.
  unfold ap. rewrite (W_heavy t L). lia.
Qed.
Lemma fixl4 x : fixl k4 x = if mv P x && negb (O x =? w x) && mem x rng then 1%nat else 0%nat.
Proof.
  unfold k4, k3, c3, k2. cbn [fixl cl4 cl3 prop opp set_opp set_prop]. rewrite (si_fixl _ _ _ _ HSI x).
  destruct (mv P x && negb (O x =? w x)); [|reflexivity]. cbn [andb]. destruct (mem_spec x rng) as [Hx|Hx].
  - pose proof (proj1 (NoDup_count_occ' Nat.eq_dec rng) NDg x Hx). lia.
  - apply (count_occ_not_In Nat.eq_dec) in Hx. lia.
Qed.
Lemma clu5 x : clu k5 x = clu k4 x. Proof. reflexivity. Qed.
(** Weight of the members of a cluster afterwards. *)
Lemma cweight5 t : In t N -> cweight H k5 t = cweight H c t + J t - (if app_ t then w t else 0).
Proof.
  intros Ht. unfold cweight, members. rewrite !sumZ_filter. unfold J.
  rewrite <- (sumZ_indicator N t (fun x => if app_ x then w x else 0) NDN) || idtac.
  transitivity (sumZ (fun x => (if Nat.eqb (clu c x) t then w x else 0) + (if app_ x && Nat.eqb (P x) t then w x else 0) -
     (if Nat.eqb x t then (if app_ x then w x else 0) else 0)) N).
  - apply sumZ_ext. intros x Hx. rewrite clu5, clu4. destruct (app_ x) eqn:A.
    + destruct (app_spec x A) as [Hr Ne]. destruct (rin x Hr) as [_ [Ec _]]. rewrite Ec. cbn [andb]. destruct (Nat.eqb x t); lia.
    + cbn [andb]. destruct (Nat.eqb x t); lia.
  - rewrite sumZ_minus, sumZ_plus. f_equal. rewrite sumZ_indicator by apply NDN. apply mem_In in Ht. rewrite Ht. reflexivity.
Qed.
Lemma nonempty_spec (d : dcore) t : nonempty H d t = true <-> exists x, In x N /\ clu d x = t.
Proof. unfold nonempty. rewrite existsb_exists. split; intros [x [Hx E]]; exists x; [apply Nat.eqb_eq in E|apply Nat.eqb_eq in E]; auto. Qed.
Lemma ne_weight (d : dcore) t : nonempty H d t = true -> 0 < cweight H d t.
Proof.
  rewrite nonempty_spec. intros [x [Hx E]]. unfold cweight, members. rewrite sumZ_filter.
  assert (L : (fun y => if Nat.eqb (clu d y) t then w y else 0) x <= sumZ (fun y => if Nat.eqb (clu d y) t then w y else 0) N).
  { apply (sumZ_member_le (fun y => if Nat.eqb (clu d y) t then w y else 0)); [|exact Hx]. intros y Hy. pose proof (Wpos y Hy). destruct (Nat.eqb _ _); lia. }
  cbn in L. rewrite E, Nat.eqb_refl in L. pose proof (Wpos x Hx). lia.
Qed.
(** Non-empty clusters stay non-empty unless their only member left and nobody joined. *)
Lemma ne_before x : In x N -> exists v, In v N /\ clu c v = clu k5 x.
Proof.
  intros Hx. rewrite clu5, clu4. destruct (app_ x) eqn:A; [|exists x; auto]. destruct (app_spec x A) as [Hr Ne].
  destruct (ask_ok x Hr Ne) as [_ [B _]]. exact B.
Qed.
Lemma ne_after t : In t N -> nonempty H k5 t = nonempty H c t && negb (app_ t && negb (pb t)).
Proof.
  intros Ht. destruct (nonempty H k5 t) eqn:E5; symmetry.
  - assert (E5' := E5). apply nonempty_spec in E5. destruct E5 as [x [Hx Ex]]. destruct (ne_before x Hx) as [v [Hv Ev]]. rewrite Ex in Ev.
    assert (Ec : nonempty H c t = true) by (apply nonempty_spec; exists v; auto). rewrite Ec. cbn [andb]. apply negb_true_iff.
    destruct (app_ t) eqn:A; [|reflexivity]. destruct (pb t) eqn:Hp; [reflexivity|]. exfalso.
    destruct (app_spec t A) as [Hr Ne]. destruct (mover_w t Hr Ne) as [E1 E2]. destruct (rin t Hr) as [_ [Ect _]].
    destruct (node_w t Ht) as [W1 W2]. rewrite Ect in W1, W2. pose proof (cweight5 t Ht) as C5. rewrite A, (J_nopb t Hp) in C5.
    pose proof (ne_weight k5 t E5'). lia.
  - destruct (nonempty H c t) eqn:Ec; [|reflexivity]. cbn [andb]. apply negb_false_iff.
    destruct (app_ t) eqn:A; cbn [andb].
    + destruct (pb t) eqn:Hp; [|reflexivity]. exfalso.
      pose proof (J_pos t Hp) as JP. unfold J in JP. apply sumZ_pos_ex in JP. destruct JP as [x [Hx JP]].
      destruct (app_ x) eqn:Ax; cbn in JP; [|lia]. destruct (Nat.eqb_spec (P x) t) as [Ex|]; [|lia].
      assert (nonempty H k5 t = true); [|congruence]. apply nonempty_spec. exists x. split; [exact Hx|]. rewrite clu5, clu4, Ax. exact Ex.
    + exfalso. apply nonempty_spec in Ec. destruct Ec as [y [Hy Ey]].
      assert (Ay : app_ y = false).
      { destruct (app_ y) eqn:Ay; [|reflexivity]. destruct (app_spec y Ay) as [Hr _]. destruct (rin y Hr) as [_ [Ecy _]]. congruence. }
      assert (nonempty H k5 t = true); [|congruence]. apply nonempty_spec. exists y. split; [exact Hy|]. rewrite clu5, clu4, Ay. exact Ey.
Qed.
Lemma cnt4 : cnt k4 = sumZ (fun x => Z.b2z (app_ x && negb (pb x))) N.
Proof.
  assert (Q : forall x, In x rng -> P x <> x -> (O x =? w x) = negb (pb x)).
  { intros x Hx Ne. destruct (mover_w x Hx Ne) as [_ E]. pose proof (O_eq x) as EO. destruct (pb x) eqn:Hp; cbn.
    - pose proof (J0_pos x Hp). apply Z.eqb_neq. lia.
    - rewrite (J0_zero x Hp) in EO. apply Z.eqb_eq. lia. }
  unfold k4, k3, c3, k2. cbn [cnt cl4 cl3 prop opp set_opp set_prop]. rewrite (si_cnt _ _ _ _ HSI). rewrite Z.add_0_l.
  assert (E1 : sumZ (fun u => if mv P u && lt (P u) && (O u =? w u) then 1 else 0) rng =
               sumZ (fun u => if mem u rng && mv P u && lt (P u) && (O u =? w u) then 1 else 0) N).
  { rewrite <- (sum_sub (fun u => if mem u rng && mv P u && lt (P u) && (O u =? w u) then 1 else 0) rng N NDg NDN).
    - apply sumZ_ext. intros u Hu. apply mem_In in Hu. rewrite Hu. reflexivity.
    - intros u Hu. apply (rin u Hu).
    - intros u _ Hu. apply mem_false in Hu. rewrite Hu. reflexivity. }
  assert (E2 : sumZ (fun v => if mem v (ap H p hl P W (P v)) && (O v =? w v) then 1 else 0) hl =
               sumZ (fun v => if mem v (ap H p hl P W (P v)) && (O v =? w v) then 1 else 0) N).
  { apply sum_sub; [apply hl_nodup|apply NDN|intros u Hu; apply hl_in in Hu; apply (rin u (proj1 Hu))|].
    intros u _ Hu. destruct (mem_spec u (ap H p hl P W (P u))) as [Ha|]; [|reflexivity]. exfalso. apply Hu.
    apply appr_incl in Ha. unfold grp in Ha. apply filter_In in Ha. apply Ha. }
  rewrite E1, E2, <- sumZ_plus. apply sumZ_ext. intros x Hx.
  destruct (mem_spec x (ap H p hl P W (P x))) as [Ha|Ha].
  - assert (Hh : In x hl) by (apply appr_incl in Ha; unfold grp in Ha; apply filter_In in Ha; apply Ha).
    apply hl_in in Hh. destruct Hh as [Hr [Ne L]]. assert (A : app_ x = true).
    { unfold app_, mv. apply mem_In in Hr. rewrite Hr. destruct (Nat.eqb_spec (P x) x); [contradiction|]. apply mem_In in Ha. rewrite Ha, orb_true_r. reflexivity. }
    rewrite A, L, andb_false_r. cbn [andb]. rewrite (Q x Hr Ne). destruct (pb x); reflexivity.
  - cbn [andb]. unfold app_. apply mem_false in Ha. rewrite Ha, orb_false_r.
    destruct (mem x rng && mv P x && lt (P x)) eqn:G; cbn [andb]; [|lia].
    assert (A : app_ x = true) by (unfold app_; apply andb_true_iff in G; destruct G as [G1 G2]; rewrite G1, G2; reflexivity).
    destruct (app_spec x A) as [Hr Ne]. rewrite (Q x Hr Ne). destruct (pb x); reflexivity.
Qed.
Theorem SI_next : SI H p pend (sub_end k5).
Proof.
  assert (clue : forall x, clu (sub_end k5) x = if app_ x then P x else clu c x) by (intros x; apply clu4).
  assert (INN : forall x, In x N -> In (clu k5 x) N).
  { intros x Hx. destruct (ne_before x Hx) as [v [Hv Ev]]. rewrite <- Ev. apply (si_clu _ _ _ _ HSI v Hv). }
  assert (PRE : forall x, In x N -> cwt c (clu k5 x) = cweight H c (clu k5 x) /\ opp c (clu k5 x) = cwt c (clu k5 x)).
  { intros x Hx. destruct (ne_before x Hx) as [v [Hv Ev]]. rewrite <- Ev. apply (node_w v Hv). }
  assert (LFT : forall x, In x N -> app_ (clu k5 x) = true -> pb (clu k5 x) = true).
  { intros x Hx A. pose proof (ne_after (clu k5 x) (INN x Hx)) as E.
    assert (nonempty H k5 (clu k5 x) = true) by (apply nonempty_spec; exists x; auto). rewrite H0 in E. symmetry in E.
    apply andb_true_iff in E. destruct E as [_ E]. rewrite A in E. destruct (pb (clu k5 x)); [reflexivity|discriminate]. }
  assert (FX : forall t, In t N -> (app_ t = true -> pb t = true) ->
             Z.of_nat (fixl k4 t) * (if Nat.eqb (clu k4 t) t then 0 else w t) = if app_ t then w t else 0).
  { intros t Ht Hlf. rewrite fixl4, clu4. destruct (app_ t) eqn:A.
    - destruct (app_spec t A) as [Hr Ne]. destruct (mover_w t Hr Ne) as [_ E2]. pose proof (O_eq t). pose proof (J0_pos t (Hlf eq_refl)).
      unfold mv. destruct (Nat.eqb_spec (P t) t); [contradiction|]. destruct (Z.eqb_spec (O t) (w t)); [lia|].
      apply mem_In in Hr. rewrite Hr. cbn [negb andb]. lia.
    - destruct (mem_spec t rng) as [Hr|Hr]; [|rewrite andb_false_r; lia]. destruct (rin t Hr) as [_ [Ec _]]. rewrite Ec, Nat.eqb_refl. lia. }
  constructor.
  - intros x Hx. apply INN. exact Hx.
  - intros x Hx. change (clu (sub_end k5) x) with (clu k5 x). change (cweight H (sub_end k5) (clu k5 x)) with (cweight H k5 (clu k5 x)).
    set (t := clu k5 x). destruct (PRE x Hx) as [P1 P2]. fold t in P1, P2. pose proof (INN x Hx) as Ht. fold t in Ht.
    rewrite (cweight5 t Ht). destruct (cwt4 t P2) as [C1 C2].
    unfold sub_end, k5, c5. cbn [cwt opp set_opp set_cwt]. rewrite (FX t Ht (LFT x Hx)). split; lia.
  - intros u Hu. pose proof (si_pend _ _ _ _ HSI u (in_or_app _ _ _ (or_intror Hu))) as [HN [Ec Ep]]. split; [exact HN|].
    assert (Hn : ~ In u rng).
    { intros Hr. revert NDr Hr Hu. clear. induction rng as [|a l IH]; intros ND Hr Hu; [destruct Hr|]. cbn in ND. inversion ND as [|? ? Ha ND']; subst.
      destruct Hr as [->|Hr]; [apply Ha; apply in_or_app; right; exact Hu|apply IH; assumption]. }
    rewrite clue. assert (A : app_ u = false) by (unfold app_; apply mem_false in Hn; rewrite Hn; reflexivity). rewrite A. split; [exact Ec|].
    change (prop (sub_end k5) u) with (P u). rewrite (pr_out _ _ _ _ _ _ _ PR u Hn). exact Ep.
  - change (num (sub_end k5)) with (num c - cnt k4). rewrite cnt4, (si_num _ _ _ _ HSI), <- sumZ_minus. apply sumZ_ext. intros t Ht.
    change (nonempty H (sub_end k5) t) with (nonempty H k5 t). rewrite (ne_after t Ht).
    destruct (app_ t && negb (pb t)) eqn:G; [|rewrite andb_true_r; cbn; lia]. rewrite andb_false_r.
    apply andb_true_iff in G. destruct G as [A _]. destruct (app_spec t A) as [Hr _]. destruct (rin t Hr) as [_ [Ec _]].
    assert (E : nonempty H c t = true) by (apply nonempty_spec; exists t; auto). rewrite E. reflexivity.
  - intros x Hx. rewrite clue. destruct (app_ x) eqn:A; [|apply (si_com _ _ _ _ HSI x Hx)]. destruct (app_spec x A) as [Hr Ne].
    apply (ask_ok x Hr Ne).
  - intros x Hx. change (clu (sub_end k5) x) with (clu k5 x). change (cweight H (sub_end k5) (clu k5 x)) with (cweight H k5 (clu k5 x)).
    change (members H (sub_end k5) (clu k5 x)) with (members H k5 (clu k5 x)).
    set (t := clu k5 x). destruct (PRE x Hx) as [P1 P2]. fold t in P1, P2. pose proof (INN x Hx) as Ht. fold t in Ht.
    destruct (pb t) eqn:Hp.
    + left. rewrite (cweight5 t Ht). assert (0 <= if app_ t then w t else 0) by (pose proof (Wpos t Ht); destruct (app_ t); lia).
      assert (cwt c t + J t <= maxw p); [|lia]. destruct (lt t) eqn:L.
      * rewrite (J_light t L). pose proof (O_eq t). unfold light in L. apply Z.leb_le in L. lia.
      * rewrite (J_heavy t L). rewrite <- (W_heavy t L). unfold ap. rewrite <- appr_sum. apply appr_le. rewrite (W_heavy t L).
        assert (Hp' := Hp). apply pb_spec in Hp'. destruct Hp' as [u [Hu [Ne Et]]]. destruct (ask_ok u Hu Ne) as [_ [_ [_ [Le _]]]]. rewrite Et in Le.
        pose proof (Wpos u (proj1 (rin u Hu))). lia.
    + assert (A : app_ t = false) by (destruct (app_ t) eqn:A; [|reflexivity]; pose proof (LFT x Hx A); fold t in H0; congruence).
      assert (EM : members H k5 t = members H c t).
      { unfold members. apply filter_ext_in. intros y Hy. rewrite clu5, clu4. destruct (app_ y) eqn:Ay; [|reflexivity].
        destruct (app_spec y Ay) as [Hr Ne]. destruct (rin y Hr) as [_ [Ec _]]. rewrite Ec.
        destruct (Nat.eqb_spec (P y) t) as [E|]; [exfalso; assert (pb t = true) by (apply pb_spec; exists y; auto); congruence|].
        destruct (Nat.eqb_spec y t) as [->|]; [congruence|reflexivity]. }
      destruct (ne_before x Hx) as [v [Hv Ev]]. fold t in Ev. destruct (si_max _ _ _ _ HSI v Hv) as [M|M]; rewrite Ev in M.
      * left. unfold cweight. rewrite EM. exact M.
      * right. rewrite EM. exact M.
  - intros x b Hf Hx Eb. rewrite clue. destruct (app_ x) eqn:A; [|apply (si_fix _ _ _ _ HSI x b Hf Hx Eb)]. destruct (app_spec x A) as [Hr Ne].
    destruct (ask_ok x Hr Ne) as [_ [_ [_ [_ Ac]]]]. apply (accept_fix H p f (P x) x b (Ac Hf) Eb).
  - intros v u Ep Ne Hu. change (prop (sub_end k5) v) with (P v) in Ep.
    pose proof (si_pend _ _ _ _ HSI u (in_or_app _ _ _ (or_intror Hu))) as [HN [Ec _]].
    destruct (node_w u HN) as [W1 W2]. rewrite Ec in W1, W2.
    assert (Hn : ~ In u rng).
    { intros Hr. revert NDr Hr Hu. clear. induction rng as [|a l IH]; intros ND Hr Hu; [destruct Hr|]. cbn in ND. inversion ND as [|? ? Ha ND']; subst.
      destruct Hr as [->|Hr]; [apply Ha; apply in_or_app; right; exact Hu|apply IH; assumption]. }
    assert (CE : cwt (sub_end k5) u = cwt c u + J u).
    { unfold sub_end, k5, c5. cbn [cwt opp set_opp set_cwt]. destruct (cwt4 u W2) as [-> _]. rewrite fixl4. apply mem_false in Hn. rewrite Hn, andb_false_r. lia. }
    rewrite CE. destruct (in_dec Nat.eq_dec v rng) as [Hv|Hv].
    + assert (Hp : pb u = true) by (apply pb_spec; exists v; split; [exact Hv|split; [congruence|exact Ep]]). pose proof (J_pos u Hp).
      assert (w u <= cwt c u); [|lia]. rewrite W1. unfold cweight, members. apply sumZ_member_le; [|apply filter_In; rewrite Nat.eqb_eq; auto].
      intros y Hy. apply filter_In in Hy. pose proof (Wpos y (proj1 Hy)). lia.
    + rewrite (pr_out _ _ _ _ _ _ _ PR v Hv) in Ep. pose proof (si_stale _ _ _ _ HSI v u Ep Ne (in_or_app _ _ _ (or_intror Hu))).
      assert (0 <= J u); [|lia]. destruct (pb u) eqn:Hp; [pose proof (J_pos u Hp); lia|rewrite (J_nopb u Hp); lia].
  - reflexivity.
  - reflexivity.
  - reflexivity.
  - change (oob (sub_end k5)) with (oob c). apply (si_oob _ _ _ _ HSI).
Qed.
End Inv.
