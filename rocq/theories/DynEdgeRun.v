(** Proofs about the pins of one hyperedge: the uncontraction phase. *)
From Coq Require Import List Arith Lia Bool Permutation Sorted.
From Verif Require Import Base INA INARep INAOps2 DynEdge DynEdgeSpec DynEdgeThms DynEdgeBatch.
Import ListNotations.
Local Open Scope nat_scope.

Section Run.
Variables (P0 : list nat) (ops : list eop) (rank par : nat -> nat) (b0 : nat).
Hypothesis L : legal P0 ops.
Hypothesis O : order_ok P0 ops rank par b0.

Definition Vb (b x : nat) : Prop :=
  (In x P0 \/ exists o, In o ops /\ o_u o = x /\ o_sh o = false /\ b <= rank (o_v o)) /\
  ~ (exists o, In o ops /\ o_v o = x /\ b <= rank x).

Record uinv (b : nat) (part : nat -> nat) (s : pst) : Prop := {
  ui_b : b0 <= b;
  ui_size : e_size (p_edge s) <= length (e_arr (p_edge s));
  ui_nd : NoDup (valid (p_edge s) ++ invalid (p_edge s));
  ui_valid : forall x, In x (valid (p_edge s)) <-> Vb b x;
  ui_sorted : StronglySorted (fun x y => rank x <= rank y) (invalid (p_edge s));
  ui_inv : forall x, In x (invalid (p_edge s)) <-> exists o, In o ops /\ o_v o = x /\ o_sh o = true /\ b <= rank x;
  ui_pc : forall blk, p_pc s blk = counts part (valid (p_edge s)) blk }.

(** the first contraction onto a node that was not a pin is uncontracted last *)
Lemma onto_nsh o : In o ops -> In (o_u o) P0 \/ exists o', In o' ops /\ o_u o' = o_u o /\ o_sh o' = false /\ rank (o_v o) <= rank (o_v o').
Proof.
  intros Ho. destruct (legal_in _ _ _ L Ho) as (l1 & l2 & E & G). destruct (o_sh o) eqn:Es; [|right; exists o; auto].
  apply (lg_sh _ _ _ G) in Es. destruct Es as [X|(o' & Hi & Eu & Es')]; [left; exact X|]. right. exists o'.
  assert (Hio : In o' ops) by (rewrite E; apply in_or_app; left; exact Hi).
  split; [exact Hio|]. split; [exact Eu|]. split; [exact Es'|].
  apply in_split in Hi. destruct Hi as (a & c & ->). rewrite <- app_assoc in E.
  exact (o_sibling _ _ _ _ _ O a o' c o l2 E Eu).
Qed.

(** the representative of an uncontraction of batch [b] is a pin before it *)
Lemma rep_valid b o : In o ops -> rank (o_v o) = b -> Vb b (o_u o).
Proof.
  intros Ho Hb. split.
  - destruct (onto_nsh o Ho) as [X|(o' & H1 & H2 & H3 & H4)]; [left; exact X|]. right. exists o'. repeat split; auto. lia.
  - intros (o' & Ho' & Ev & Hr). pose proof (o_parent _ _ _ _ _ O o' o Ho' Ho (eq_sym Ev)) as X. rewrite Ev in X. lia.
Qed.

Lemma v_onto o : In o ops -> In (o_v o) P0 \/ exists o', In o' ops /\ o_u o' = o_v o /\ o_sh o' = false /\ rank (o_v o) < rank (o_v o').
Proof.
  intros Ho. destruct (legal_in _ _ _ L Ho) as (l1 & l2 & E & G).
  destruct (lg_v2 _ _ _ G) as [X|(o' & Hi & Eu & Es')]; [left; exact X|]. right. exists o'.
  assert (Hio : In o' ops) by (rewrite E; apply in_or_app; left; exact Hi).
  repeat split; auto. exact (o_parent _ _ _ _ _ O o o' Ho Hio Eu).
Qed.

(** the pins of stage [b] are the representatives *)
Lemma Vb_image b x : Vb b x <-> In x (map (reps (filter (fun o => b <=? rank (o_v o)) ops)) P0).
Proof.
  rewrite image_spec.
  - unfold Vb. split.
    + intros [H N]. split.
      * destruct H as [H|(o & Ho & E & _ & Hb)]; [left; exact H|]. right. rewrite <- E. apply in_map. apply filter_In.
        split; [exact Ho|]. apply Nat.leb_le. exact Hb.
      * intros X. apply in_map_iff in X. destruct X as (o & E & Ho). apply filter_In in Ho. destruct Ho as [Ho Hb].
        apply Nat.leb_le in Hb. apply N. exists o. rewrite E in Hb. auto.
    + intros [H N]. split.
      * destruct H as [H|H]; [left; exact H|]. apply in_map_iff in H. destruct H as (o & E & Ho). apply filter_In in Ho.
        destruct Ho as [Ho Hb]. apply Nat.leb_le in Hb. rewrite <- E.
        destruct (onto_nsh o Ho) as [X|(o' & H1 & H2 & H3 & H4)]; [left; exact X|]. right. exists o'. repeat split; auto. lia.
      * intros (o & Ho & E & Hb). apply N. rewrite <- E. apply in_map. apply filter_In. split; [exact Ho|].
        apply Nat.leb_le. rewrite E. exact Hb.
  - intros l1 o l2 E. apply filter_split in E. destruct E as (a & c & Eo & E1 & E2 & Fo). apply Nat.leb_le in Fo.
    pose proof (L _ _ _ Eo) as G.
    assert (Sub : forall y, In y (map o_v l1) -> In y (map o_v a)).
    { intros y Hy. apply in_map_iff in Hy. destruct Hy as (q & <- & Hq). rewrite <- E1 in Hq. apply filter_In in Hq.
      apply in_map. apply Hq. }
    split; [exact (lg_uv _ _ _ G)|]. split; [intros X; exact (lg_u _ _ _ G (Sub _ X))|].
    split; [intros X; exact (lg_v _ _ _ G (Sub _ X))|].
    destruct (lg_v2 _ _ _ G) as [X|(o' & Hi & Eu & Es')]; [left; exact X|]. right. rewrite <- Eu. apply in_map.
    rewrite <- E1. apply filter_In. split; [exact Hi|]. apply Nat.leb_le.
    assert (rank (o_v o) < rank (o_v o')); [|lia].
    apply (o_parent _ _ _ _ _ O); auto; rewrite Eo; apply in_or_app; [right; left; reflexivity|left; exact Hi].
Qed.

Lemma sorted_lead b inv : StronglySorted (fun x y => rank x <= rank y) inv -> (forall x, In x inv -> b <= rank x) ->
  exists lead rest, inv = lead ++ rest /\ (forall x, In x lead -> rank x = b) /\ (forall x, In x rest -> b < rank x).
Proof.
  induction inv as [|y inv IH]; intros Hs Hb.
  - exists [], []. repeat split; intros x [].
  - inversion Hs as [|y' inv' Hs' Hf]; subst y' inv'.
    destruct (Nat.eq_dec (rank y) b) as [E|E].
    + destruct IH as (lead & rest & Ei & H1 & H2); [exact Hs'|intros x Hx; apply Hb; right; exact Hx|].
      exists (y :: lead), rest. rewrite Ei. split; [reflexivity|]. split; [|exact H2].
      intros x [<-|Hx]; auto.
    + exists [], (y :: inv). split; [reflexivity|]. split; [intros x []|]. intros x Hx.
      pose proof (Hb y (or_introl eq_refl)). rewrite Forall_forall in Hf.
      destruct Hx as [<-|Hx]; [lia|]. specialize (Hf x Hx). lia.
Qed.

(** blocks of the current pins are not changed by setparts *)
Lemma setparts_valid b part x : b0 <= b -> Vb b x -> setparts rank b par part x = part x.
Proof.
  intros Hb0 [H N]. unfold setparts. destruct (Nat.eqb_spec (rank x) b) as [E|E]; [|reflexivity].
  assert (Hx : In x P0 \/ In x (map o_u ops)).
  { destruct H as [H|(o & Ho & <- & _)]; [left; exact H|right; apply in_map; exact Ho]. }
  assert (Hn : ~ In x (map o_v ops)).
  { intros X. apply in_map_iff in X. destruct X as (o & Ev & Ho). apply N. exists o. rewrite E. auto. }
  destruct (o_else _ _ _ _ _ O x Hx Hn) as [Y|Y]; [rewrite Y; reflexivity|lia].
Qed.

Lemma setparts_op b part o : b0 <= b -> In o ops -> rank (o_v o) = b ->
  setparts rank b par part (o_v o) = setparts rank b par part (o_u o).
Proof.
  intros Hb0 Ho E. rewrite (setparts_valid b part (o_u o) Hb0 (rep_valid b o Ho E)). unfold setparts.
  rewrite E, Nat.eqb_refl, (o_par _ _ _ _ _ O o Ho). reflexivity.
Qed.

Lemma ssorted_app_r lead rest : StronglySorted (fun x y => rank x <= rank y) (lead ++ rest) ->
  StronglySorted (fun x y => rank x <= rank y) rest.
Proof. induction lead as [|y lead IH]; cbn; intros H; [exact H|]. inversion H. auto. Qed.

(** ** One batch *)
Lemma batch_step b part s os s' : uinv b part s -> Permutation os (filter (fun o => rank (o_v o) =? b) ops) ->
  let part' := setparts rank b par part in
  batch_run rank b par part' s os s' ->
  uinv (S b) part' s' /\
  (forall blk, 0 < p_pc s' blk <-> 0 < p_pc s blk) /\
  exists Lg, p_log s' = p_log s ++ Lg /\ Permutation (map evlg Lg) (map lg os).
Proof.
  intros U Pos. cbv zeta. intros BR. set (part' := setparts rank b par part).
  pose proof (ui_b _ _ _ U) as Hb0.
  assert (Hos : forall o, In o os <-> In o ops /\ rank (o_v o) = b).
  { intros o. rewrite <- Nat.eqb_eq, <- (filter_In (fun o => rank (o_v o) =? b)). split; apply Permutation_in; [exact Pos|symmetry; exact Pos]. }
  destruct (sorted_lead b _ (ui_sorted _ _ _ U)) as (lead & rest & Ei & Hlead & Hrest).
  { intros x Hx. apply (ui_inv _ _ _ U) in Hx. destruct Hx as (o & _ & _ & _ & H). exact H. }
  set (V0 := valid (p_edge s)) in *.
  assert (Hlead2 : forall x, In x lead <-> exists o, In o os /\ o_v o = x /\ o_sh o = true).
  { intros x. split.
    - intros Hx. assert (X : In x (invalid (p_edge s))) by (rewrite Ei; apply in_or_app; auto).
      apply (ui_inv _ _ _ U) in X. destruct X as (o & Ho & Ev & Es & _). exists o. rewrite Hos, Ev. auto.
    - intros (o & Ho & Ev & Es). apply Hos in Ho. destruct Ho as [Ho Er].
      assert (X : In x (invalid (p_edge s))) by (apply (ui_inv _ _ _ U); exists o; rewrite <- Ev, Er; auto).
      rewrite Ei in X. apply in_app_or in X. destruct X as [X|X]; [exact X|]. apply Hrest in X. rewrite <- Ev, Er in X. lia. }
  assert (Hpar : forall x, In x lead -> exists o, In o os /\ o_v o = x /\ o_sh o = true /\ par x = o_u o).
  { intros x Hx. apply Hlead2 in Hx. destruct Hx as (o & Ho & Ev & Es). exists o. rewrite <- Ev.
    rewrite (o_par _ _ _ _ _ O o) by (apply Hos; exact Ho). auto. }
  assert (Hpp : forall x, In x lead -> part' (par x) = part' x).
  { intros x Hx. destruct (Hpar x Hx) as (o & Ho & Ev & _ & ->). rewrite <- Ev. apply Hos in Ho. destruct Ho as [Ho Er].
    symmetry. exact (setparts_op b part o Hb0 Ho Er). }
  assert (Hr : match rest with [] => True | y :: _ => rank y <> b end).
  { destruct rest as [|y r]; [exact I|]. specialize (Hrest y (or_introl eq_refl)). lia. }
  assert (B0 : binv par part' V0 lead rest (p_log s) [] [] lead s RIdle).
  { constructor; cbn.
    - reflexivity.
    - exact (ui_size _ _ _ U).
    - auto.
    - rewrite app_nil_r. apply Permutation_refl.
    - exact Ei.
    - intros blk. rewrite (ui_pc _ _ _ U). apply counts_ext. intros x Hx. symmetry. apply setparts_valid; [exact Hb0|].
      apply (ui_valid _ _ _ U). exact Hx.
    - exists []. rewrite app_nil_r. auto. }
  assert (NDv : NoDup (map o_v os)).
  { eapply Permutation_NoDup; [apply Permutation_map; symmetry; exact Pos|].
    pose proof (legal_nd _ _ L) as ND. clear - ND. induction ops as [|o l IH]; [constructor|]. cbn in *.
    apply NoDup_cons_iff in ND. destruct ND as [N ND]. destruct (rank (o_v o) =? b); [|auto]. cbn. constructor; [|auto].
    intros X. apply N. apply in_map_iff in X. destruct X as (o' & E & Ho'). apply filter_In in Ho'. rewrite <- E. apply in_map. apply Ho'. }
  assert (NDos : NoDup os) by exact (NoDup_map_inv _ _ NDv).
  assert (NDu : NoDup (map o_u (nonsh os))).
  { assert (H : forall l, NoDup l -> (forall o, In o l -> In o ops /\ o_sh o = false) -> NoDup (map o_u l)).
    { induction l as [|o l IH]; intros ND H; [constructor|]. apply NoDup_cons_iff in ND. destruct ND as [N ND]. cbn. constructor.
      - intros X. apply in_map_iff in X. destruct X as (o' & E & Ho').
        assert (o = o'); [|subst; contradiction].
        apply (legal_nsh_uniq P0 ops); auto; apply H; cbn; auto.
      - apply IH; [exact ND|]. intros o' Ho'. apply H. right. exact Ho'. }
    apply H; [apply NoDup_filter; exact NDos|]. intros o Ho. apply filter_In in Ho. destruct Ho as [Ho Es].
    apply Hos in Ho. split; [apply Ho|]. destruct (o_sh o); [discriminate|reflexivity]. }
  assert (Htask : forall o, In o os -> o_sh o = false -> In (o_u o) V0 /\ part' (o_u o) = part' (o_v o)).
  { intros o Ho _. apply Hos in Ho. destruct Ho as [Ho Er]. split; [apply (ui_valid _ _ _ U); exact (rep_valid b o Ho Er)|].
    symmetry. exact (setparts_op b part o Hb0 Ho Er). }
  destruct BR as (r & BR & Hr2).
  destruct (steps_inv rank b par part' V0 lead rest (p_log s) Hlead Hr Hpp os Htask NDu s s' [] r B0 BR)
    as (ds & rd & rr & B & Pds). rewrite app_nil_r in Pds.
  assert (Err : rr = []).
  { pose proof (bv_r _ _ _ _ _ _ _ _ _ _ _ B) as Br. destruct r; [|congruence|apply Br].
    destruct Br as [Br ->]. pose proof (bv_lead _ _ _ _ _ _ _ _ _ _ _ B) as Bld. cbn in Bld. subst rr.
    destruct lead as [|x l]; [reflexivity|exfalso].
    assert (X : In x (x :: l)) by (left; reflexivity). apply Hlead2 in X. destruct X as (o & Ho & _ & Es).
    assert (existsb o_sh ds = true) by (apply existsb_exists; exists o; split; [apply (Permutation_in _ Pds); exact Ho|exact Es]). congruence. }
  subst rr. pose proof (bv_lead _ _ _ _ _ _ _ _ _ _ _ B) as Erd. rewrite app_nil_r in Erd. subst rd.
  pose proof (bv_size _ _ _ _ _ _ _ _ _ _ _ B) as Bs.
  pose proof (bv_perm _ _ _ _ _ _ _ _ _ _ _ B) as Bp. pose proof (bv_inv _ _ _ _ _ _ _ _ _ _ _ B) as Bi'.
  pose proof (bv_pc _ _ _ _ _ _ _ _ _ _ _ B) as Bc. pose proof (bv_log _ _ _ _ _ _ _ _ _ _ _ B) as Bl. cbn [app] in Bi'.
  pose proof (nonsh_perm _ _ Pds) as Pns.
  assert (Bp' : Permutation (map o_u (nonsh os) ++ valid (p_edge s')) (map o_v (nonsh os) ++ V0 ++ lead)).
  { rewrite Pns. exact Bp. }
  assert (NDV : NoDup (V0 ++ lead ++ rest)) by (rewrite <- Ei; exact (ui_nd _ _ _ U)).
  assert (Hnon : forall x, In x (map o_v (nonsh os)) <-> exists o, In o ops /\ rank x = b /\ o_v o = x /\ o_sh o = false).
  { intros x. unfold nonsh. rewrite in_map_iff. split.
    - intros (o & Ev & Ho). apply filter_In in Ho. destruct Ho as [Ho Es]. apply Hos in Ho. exists o.
      destruct (o_sh o); [discriminate|]. rewrite <- Ev. tauto.
    - intros (o & Ho & Er & Ev & Es). exists o. split; [exact Ev|]. apply filter_In. rewrite Es, Hos, Ev. auto. }
  assert (Hnonu : forall x, In x (map o_u (nonsh os)) <-> exists o, In o ops /\ rank (o_v o) = b /\ o_u o = x /\ o_sh o = false).
  { intros x. unfold nonsh. rewrite in_map_iff. split.
    - intros (o & Ev & Ho). apply filter_In in Ho. destruct Ho as [Ho Es]. apply Hos in Ho. exists o.
      destruct (o_sh o); [discriminate|]. tauto.
    - intros (o & Ho & Er & Ev & Es). exists o. split; [exact Ev|]. apply filter_In. rewrite Es, Hos. auto. }
  assert (NDall : NoDup ((map o_v (nonsh os) ++ V0 ++ lead) ++ rest)).
  { rewrite <- app_assoc, <- (app_assoc V0). apply NoDup_app_i; [|exact NDV|].
    - assert (X : forall l, NoDup (map o_v l) -> NoDup (map o_v (nonsh l))).
      { induction l as [|o l IH]; intros ND; [constructor|]. cbn in *. apply NoDup_cons_iff in ND. destruct ND as [N ND].
        unfold nonsh. cbn. fold (nonsh l). destruct (negb (o_sh o)); [|auto]. cbn. constructor; [|auto].
        intros X. apply N. apply in_map_iff in X. destruct X as (o' & E & Ho'). apply filter_In in Ho'. rewrite <- E. apply in_map. apply Ho'. }
      exact (X os NDv).
    - intros x Hx Hx2. apply Hnon in Hx. destruct Hx as (o & Ho & Er & Ev & Es).
      apply in_app_or in Hx2. destruct Hx2 as [Hx2|Hx2].
      + apply (ui_valid _ _ _ U) in Hx2. destruct Hx2 as [_ N]. apply N. exists o. repeat split; auto. lia.
      + rewrite <- Ei in Hx2. apply (ui_inv _ _ _ U) in Hx2. destruct Hx2 as (o' & Ho' & Ev' & Es' & _).
        assert (o = o') by (apply (legal_v_inj P0 ops); auto; congruence). congruence. }
  assert (NDall2 : NoDup ((map o_u (nonsh os) ++ valid (p_edge s')) ++ rest)).
  { eapply Permutation_NoDup; [|exact NDall]. apply Permutation_app_tail. symmetry. exact Bp'. }
  assert (Hval : forall x, In x (valid (p_edge s')) <->
            (In x (map o_v (nonsh os)) \/ In x V0 \/ In x lead) /\ ~ In x (map o_u (nonsh os))).
  { intros x. rewrite <- !in_app_iff. split.
    - intros Hx. split; [apply (Permutation_in _ Bp'); apply in_or_app; auto|].
      intros Y. exact (NoDup_app_disj _ _ (NoDup_app_remove_r _ _ NDall2) x Y Hx).
    - intros [Hx N]. apply (Permutation_in _ (Permutation_sym Bp')) in Hx. apply in_app_or in Hx. destruct Hx as [Hx|Hx]; [contradiction|exact Hx]. }
  assert (Hvalid : forall x, In x (valid (p_edge s')) <-> Vb (S b) x).
  { intros x. rewrite Hval. split.
    - intros [Hx N].
      assert (Hc : (exists o, In o ops /\ o_v o = x /\ rank x = b) \/ Vb b x).
      { destruct Hx as [Hx|[Hx|Hx]].
        - apply Hnon in Hx. destruct Hx as (o & Ho & Er & Ev & Es). left. exists o. auto.
        - right. apply (ui_valid _ _ _ U). exact Hx.
        - apply Hlead2 in Hx. destruct Hx as (o & Ho & Ev & Es). apply Hos in Ho. destruct Ho as [Ho Er]. left. exists o. rewrite <- Ev. auto. }
      destruct Hc as [(o & Ho & Ev & Er)|[H1 H2]].
      + split.
        * rewrite <- Ev. destruct (v_onto o Ho) as [X|(o' & A1 & A2 & A3 & A4)]; [left; exact X|]. right. exists o'.
          rewrite <- Ev in Er. repeat split; auto. lia.
        * intros (o' & Ho' & Ev' & Hr'). lia.
      + split.
        * destruct H1 as [H1|(o & Ho & Eu & Es & Hbo)]; [left; exact H1|]. right. exists o. repeat split; auto.
          destruct (Nat.eq_dec (rank (o_v o)) b) as [E|E]; [|lia]. exfalso. apply N. apply Hnonu. exists o. auto.
        * intros (o & Ho & Ev & Hbo). apply H2. exists o. repeat split; auto. lia.
    - intros [H1 H2]. split.
      + destruct (in_dec Nat.eq_dec x (map o_v os)) as [X|X].
        * apply in_map_iff in X. destruct X as (o & Ev & Ho). destruct (o_sh o) eqn:Es.
          -- right. right. apply Hlead2. exists o. auto.
          -- left. apply Hnon. apply Hos in Ho. destruct Ho as [Ho Er]. exists o. rewrite <- Ev. auto.
        * right. left. apply (ui_valid _ _ _ U). split.
          -- destruct H1 as [H1|(o & Ho & Eu & Es & Hbo)]; [left; exact H1|]. right. exists o. repeat split; auto. lia.
          -- intros (o & Ho & Ev & Hbo). destruct (Nat.eq_dec (rank x) b) as [E|E].
             ++ apply X. rewrite <- Ev. apply in_map. apply Hos. rewrite Ev. auto.
             ++ apply H2. exists o. repeat split; auto. lia.
      + intros X. apply Hnonu in X. destruct X as (o & Ho & Er & Eu & Es).
        destruct H1 as [H1|(o' & Ho' & Eu' & Es' & Hbo)].
        * apply (legal_nsh_P0 _ _ _ L Ho Es). rewrite Eu. exact H1.
        * assert (o = o') by (apply (legal_nsh_uniq P0 ops); auto; congruence). subst o'. lia. }
  split; [|split].
  - constructor.
    + lia.
    + exact Bs.
    + rewrite Bi'. rewrite <- app_assoc in NDall2. exact (NoDup_app_remove_l _ _ NDall2).
    + exact Hvalid.
    + rewrite Bi'. apply (ssorted_app_r lead). rewrite <- Ei. exact (ui_sorted _ _ _ U).
    + intros x. rewrite Bi'. split.
      * intros Hx. assert (X : In x (invalid (p_edge s))) by (rewrite Ei; apply in_or_app; auto).
        apply (ui_inv _ _ _ U) in X. destruct X as (o & Ho & Ev & Es & _). exists o. repeat split; auto. apply Hrest. exact Hx.
      * intros (o & Ho & Ev & Es & Hbo). assert (X : In x (invalid (p_edge s))).
        { apply (ui_inv _ _ _ U). exists o. repeat split; auto. lia. }
        rewrite Ei in X. apply in_app_or in X. destruct X as [X|X]; [|exact X]. apply Hlead in X. lia.
    + exact Bc.
  - intros blk. rewrite Bc, (ui_pc _ _ _ U), !counts_pos.
    assert (Hpo : forall o, In o os -> exists y, In y V0 /\ part y = part' (o_v o)).
    { intros o Ho. apply Hos in Ho. destruct Ho as [Ho Er]. exists (o_u o). pose proof (rep_valid b o Ho Er) as Vu.
      split; [apply (ui_valid _ _ _ U); exact Vu|]. unfold part'. rewrite (setparts_op b part o Hb0 Ho Er).
      symmetry. apply setparts_valid; auto. }
    split.
    + intros (x & Hx & Ep). apply Hval in Hx. destruct Hx as [[Hx|[Hx|Hx]] _].
      * unfold nonsh in Hx. apply in_map_iff in Hx. destruct Hx as (o & Ev & Ho). apply filter_In in Ho.
        destruct (Hpo o) as (y & Hy & E); [apply Ho|]. exists y. rewrite E, Ev. auto.
      * exists x. split; [exact Hx|]. rewrite <- Ep. symmetry. apply setparts_valid; [exact Hb0|]. apply (ui_valid _ _ _ U). exact Hx.
      * apply Hlead2 in Hx. destruct Hx as (o & Ho & Ev & _). destruct (Hpo o Ho) as (y & Hy & E). exists y. rewrite E, Ev. auto.
    + intros (x & Hx & Ep). destruct (in_dec Nat.eq_dec x (map o_u (nonsh os))) as [X|X].
      * unfold nonsh in X. apply in_map_iff in X. destruct X as (o & Eu & Ho). pose proof Ho as Ho2. apply filter_In in Ho. destruct Ho as [Ho Es].
        exists (o_v o). split.
        -- apply Hval. split; [left; apply in_map; exact Ho2|]. intros Y. apply Hnonu in Y. destruct Y as (o' & Ho' & Er' & Eu' & _).
           apply Hos in Ho. destruct Ho as [Ho Er]. pose proof (o_parent _ _ _ _ _ O o o' Ho Ho' Eu'). lia.
        -- apply Hos in Ho. destruct Ho as [Ho Er]. unfold part'. rewrite (setparts_op b part o Hb0 Ho Er), Eu.
           rewrite setparts_valid; auto. apply (ui_valid _ _ _ U). exact Hx.
      * exists x. split; [apply Hval; auto|]. unfold part'. rewrite setparts_valid; auto. apply (ui_valid _ _ _ U). exact Hx.
  - destruct Bl as (Lg & EL & PL). exists Lg. split; [exact EL|]. rewrite PL.
    assert (PL2 : Permutation (map (fun x => (true, par x, x)) lead) (map lg (filter o_sh os))).
    { assert (Pl : Permutation lead (map o_v (filter o_sh os))).
      { apply NoDup_Permutation.
        - exact (NoDup_app_remove_r _ _ (NoDup_app_remove_l _ _ NDV)).
        - assert (X : forall l, NoDup (map o_v l) -> NoDup (map o_v (filter o_sh l))).
          { induction l as [|o l IH]; intros ND; [constructor|]. cbn in *. apply NoDup_cons_iff in ND. destruct ND as [N ND].
            destruct (o_sh o); [|auto]. cbn. constructor; [|auto].
            intros X. apply N. apply in_map_iff in X. destruct X as (o' & E' & Ho'). apply filter_In in Ho'. rewrite <- E'. apply in_map. apply Ho'. }
          exact (X os NDv).
        - intros x. rewrite Hlead2, in_map_iff. split.
          + intros (o & Ho & Ev & Es). exists o. rewrite filter_In. auto.
          + intros (o & Ev & Ho). apply filter_In in Ho. destruct Ho. exists o. auto. }
      rewrite Pl, map_map. erewrite map_ext_in; [apply Permutation_refl|]. intros o Ho. apply filter_In in Ho. destruct Ho as [Ho Es].
      unfold lg. rewrite Es, (o_par _ _ _ _ _ O o); [reflexivity|]. apply Hos. exact Ho. }
    rewrite PL2, <- Pns, <- map_app. apply Permutation_map. clear. induction os as [|o os IH]; [constructor|].
    unfold nonsh. cbn. fold (nonsh os). destruct (o_sh o); cbn.
    + rewrite <- Permutation_middle. constructor. exact IH.
    + constructor. exact IH.
Qed.

Lemma urun_inv e0 b part s : cinv P0 ops e0 -> urun ops e0 rank par b0 b part s -> uinv b part s.
Proof.
  intros C R. induction R as [inv part Hp Hs|b part s part' R IH|b part s os s' R IH Pos BR].
  - assert (Ln : e_size e0 = length (valid e0)) by (unfold valid; rewrite firstn_length_le; [reflexivity|exact (ci_len _ _ _ C)]).
    constructor; cbn [p_edge p_pc]; rewrite ?valid_mk, ?invalid_mk by exact Ln.
    + lia.
    + cbn. rewrite app_length. lia.
    + eapply Permutation_NoDup; [|exact (ci_nd _ _ _ C)]. apply Permutation_app_head. symmetry. exact Hp.
    + intros x. rewrite (ci_valid _ _ _ C). unfold Vb, nsh. split.
      * intros [H N]. split.
        -- destruct H as [H|(o & Ho & Eu & Es)]; [left; exact H|right]. exists o. pose proof (o_first _ _ _ _ _ O o Ho). auto.
        -- intros (o & Ho & Ev & _). apply N. rewrite <- Ev. apply in_map. exact Ho.
      * intros [H N]. split.
        -- destruct H as [H|(o & Ho & Eu & Es & _)]; [left; exact H|right]. exists o. auto.
        -- intros X. apply in_map_iff in X. destruct X as (o & Ev & Ho). apply N. exists o. pose proof (o_first _ _ _ _ _ O o Ho) as Y. rewrite Ev in Y. auto.
    + exact Hs.
    + intros x. split.
      * intros Hx. apply (Permutation_in _ Hp) in Hx. apply (ci_inv _ _ _ C) in Hx. destruct Hx as (o & Ho & Ev & Es).
        exists o. pose proof (o_first _ _ _ _ _ O o Ho) as Y. rewrite Ev in Y. auto.
      * intros (o & Ho & Ev & Es & _). apply (Permutation_in _ (Permutation_sym Hp)). apply (ci_inv _ _ _ C). exists o. auto.
    + reflexivity.
  - destruct IH. constructor; auto.
  - exact (proj1 (batch_step b part s os s' IH Pos BR)).
Qed.
End Run.
