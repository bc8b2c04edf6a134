(** LPProps.v - C72: label propagation with execute_sequential = true never returns a worse partition. *)
From Verif Require Import Base Spec SpecLemmas PHG PHGProofs GainCache Metrics PropsA Conc DetLP DetLPThms DetLPProps Jet JetThms JetProps Scan AfterburnerProps GainComp GainCompProps LP LPThms LPSeq.

Section Props.
Variables (H : hypergraph) (k : nat) (L PB : nat -> Z) (o : objective) (fixed : nat -> bool) (un rebal : bool) (thr : Z).
Variables (D : Type) (imb : list Z -> D) (dlt : D -> D -> bool) (small : Z -> Z -> bool).
Variables (large_k : bool) (removed : Z).
Local Notation weights P := (map (block_weight H P) (seq 0 k)).
Local Notation ok := (acceptable H k L large_k removed).
(** LabelPropagationRefiner::refine with execute_sequential, the rebalancer of C61 and refinement nodes [refine] (empty: all nodes). *)
Definition seq_lp (rb : phg -> Z -> phg -> Z -> list mv -> Prop) (maxit : nat) (refine : list nat) : phg -> Z -> D -> phg -> Z -> D -> bool -> Prop :=
  let mu := un && negb (isnil refine) in
  refine_lp H k L mu un rebal thr D imb dlt small large_k removed (sphase H L PB o fixed mu rebal thr) rb (srollb H L) maxit refine.
Hypotheses (Wn : forall v, In v (nodes H) -> 0 <= nw H v) (Wt : total_weight H <= MAXW).
Hypothesis TR : forall a b c, dlt a b = true -> dlt b c = true -> dlt a c = true.

(** Sequential label propagation: the state stays consistent, the reported quality and imbalance are those of the returned partition,
    fixed vertices stay; the constrained variant never makes the objective worse and no block heavier than the larger of its limit and
    its previous weight; the unconstrained variant keeps acceptable partitions acceptable and never makes their objective worse, and an
    unacceptable partition becomes acceptable, or better balanced, or is returned unchanged. *)
Theorem C72_never_worse : forall maxit refine s q i s' q' i' ret, started H s -> pk s = k -> incl refine (nodes H) ->
  q = obj_spec o H (part s) -> i = imb (weights (part s)) ->
  seq_lp (rebalancer H L o fixed) maxit refine s q i s' q' i' ret ->
  started H s' /\ pk s' = k /\ q' = obj_spec o H (part s') /\ i' = imb (weights (part s')) /\ (forall v, fixed v = true -> part s' v = part s v) /\
  (un = false -> q' <= q /\ forall b, (b < k)%nat -> block_weight H (part s') b <= Z.max (L b) (block_weight H (part s) b)) /\
  (un = true -> (ok (part s) -> ok (part s') /\ q' <= q) /\ (ok (part s') \/ dlt i' i = true \/ forall v, part s' v = part s v)) /\
  ret = (q' <? q).
Proof.
  intros maxit refine s q i s' q' i' ret ST K Sub Q I R. unfold seq_lp in R.
  destruct (refine_ok H k L o fixed _ un rebal thr D imb dlt small large_k removed false _ _ _ (sphase_good H k L PB o fixed _ rebal thr Wn Wt) (rebalancer_good H k L o fixed Wn) (srollb_good H k L PB o fixed Wn Wt) TR
    maxit refine s q i s' q' i' ret R Sub ltac:(discriminate) (conj ST K) Q I) as ([S1 S2] & A1 & A2 & A3 & A4 & A5 & A6 & A7).
  specialize (A7 (sphase_mono H k L PB o fixed _ rebal thr Wn Wt)).
  split; [exact S1|]. split; [exact S2|]. split; [exact A1|]. split; [exact A2|]. split; [exact A4|].
  split; [intros U; split; [apply A7; left; exact U|exact (A5 U)]|]. split; [|exact A3].
  intros U. destruct (A6 U) as [B1 B2]. split; [|exact B2]. intros X. split; [exact (B1 X)|apply A7; right; exact X].
Qed.

(** No step is undefined: whenever the rebalancer ends, so does label propagation. *)
Theorem C72_completes : forall rb maxit refine s q i, started H s -> pk s = k -> incl refine (nodes H) -> q = obj_spec o H (part s) -> i = imb (weights (part s)) ->
  rb_good H k o fixed rb -> (forall s q, started H s -> pk s = k -> exists s' q' ms, rb s q s' q' ms) ->
  exists s' q' i' ret, seq_lp rb maxit refine s q i s' q' i' ret.
Proof.
  intros rb maxit refine s q i ST K Sub Q I RB Tot. unfold seq_lp. set (mu := un && negb (isnil refine)).
  pose proof (sphase_good H k L PB o fixed mu rebal thr Wn Wt) as PG.
  pose proof (srollb_good H k L PB o fixed Wn Wt) as RO.
  assert (Rnd : forall x, RI H k o mu un D imb false x -> exists x' b, lround H k L mu un thr D imb dlt large_k removed (sphase H L PB o fixed mu rebal thr) rb (srollb H L) x x' b).
  { intros x IX. pose proof IX as [I1 I2 I3 I4 I4' I5 I6].
    destruct (sphase_total H k L PB o fixed mu rebal thr Wn Wt un (r_act D x) (r_s D x) (fresh (r_old D x) (r_oin D x)) I1 I4) as (s1 & d1 & mvd & y & PH).
    destruct (bool_dec un false) as [U|U].
    - rewrite U in PH. eexists. eexists. eapply R_con; [exact U|exact PH|reflexivity].
    - apply not_false_iff_true in U. rewrite U in PH. destruct (Jet.isbal k L large_k removed s1) eqn:B.
      + eexists. eexists. eapply R_bal; [exact U|exact PH|exact B|reflexivity|reflexivity].
      + destruct (pg_main H k L o fixed false _ PG _ _ _ _ _ _ _ _ PH I1 I4 I4') as ([R1 R1'] & _).
        destruct (Tot s1 (r_q D x + d1) R1 R1') as (s2 & q2 & ms & ER).
        destruct (append_moves mu ms (old y) (oin y)) as [[ap od] oi] eqn:AP.
        destruct (keep_new k L D imb dlt large_k removed (Jet.isbal k L large_k removed (r_s D x)) (r_i D x) (r_q D x) s2 q2) eqn:KN.
        * eexists. eexists. eapply R_keep; [exact U|exact PH|exact B|exact ER|exact AP|exact KN|reflexivity|reflexivity].
        * destruct (touched H k L o fixed mu un thr D imb small false _ _ PG RB x s1 d1 mvd y s2 q2 ms ap od oi IX U PH ER AP) as (_ & R2 & Q2 & Sl & _ & Od & _).
          destruct (srollb_total H k L PB o fixed Wn Wt (mvd ++ ap) od s2 R2 Sl) as [s3 E3].
          { intros v Hv. rewrite (Od v Hv). destruct I1 as [(_ & _ & HC) K1]. destruct (HC v (Sl v Hv)) as (b & Eb & Lb). exists b. split; [exact Eb|congruence]. }
          eexists. eexists. eapply R_roll; [exact U|exact PH|exact B|exact ER|exact AP|exact KN|exact E3]. }
  assert (Run : forall n x, RI H k o mu un D imb false x -> exists x', lrun H k L mu un thr D imb dlt small large_k removed (sphase H L PB o fixed mu rebal thr) rb (srollb H L) n x x').
  { induction n as [|n IH]; intros x IX; [exists x; apply L_stop; left; reflexivity|].
    destruct (r_act D x) as [|a l] eqn:Ea; [exists x; apply L_stop; right; exact Ea|].
    destruct (Rnd x IX) as (x' & b & R). destruct (b || small (r_q D x) (r_q D x')) eqn:B.
    - exists x'. eapply L_last; [congruence|exact R|exact B].
    - apply orb_false_iff in B. destruct B as [-> B]. destruct (lround_ok H k L o fixed mu un thr D imb dlt small large_k removed false _ _ _ PG RB RO x x' false R IX) as (IX' & _).
      destruct (IH x' IX') as [x'' R'']. exists x''. eapply L_next; [congruence|exact R|exact B|exact R'']. }
  set (act := match refine with [] => filter (fun v => rebal || isBorderNode H s v) (nodes H) | _ => refine end).
  assert (IA : init_act H un rebal refine s act (part s)) by (unfold init_act, act; destruct refine; split; auto).
  assert (IX : RI H k o mu un D imb false (mkR D s q i act (part s) (fun v => mem v refine))).
  { split; cbn [LP.r_s LP.r_q LP.r_i LP.r_act LP.r_old LP.r_oin].
    - exact (conj ST K).
    - exact Q.
    - exact I.
    - intros v Hv. unfold act in Hv. destruct refine; [apply filter_In in Hv; apply Hv|apply Sub; exact Hv].
    - discriminate.
    - reflexivity.
    - intros _ v Hv. unfold act in Hv. destruct refine as [|r0 rr]; [left; unfold mu; cbn [isnil negb]; apply andb_false_r|right]. apply mem_In. exact Hv. }
  destruct (Run maxit _ IX) as [x' R]. exists (r_s D x'), (r_q D x'), (r_i D x'), (r_q D x' <? q). exists act, (part s), x'. repeat (split; [first [reflexivity|exact IA|exact R]|]). reflexivity.
Qed.
End Props.

(** Example: the hypergraph of C68 with nodes 0, 2, 3 in block 1 and node 1 in block 0; one round with the active nodes 0 and 1
    (given as refinement nodes) moves node 0 to block 0; node 1 is fixed; the objective drops by one. *)
Definition lpD := Z. Definition lp_imb (l : list Z) : Z := fold_left Z.max l 0.
Definition lp_s : phg := state_of aH 3 gcP.
Definition lp_res (un : bool) := move_nodes aH (fun _ => 10) (fun _ => 10) Okm1 (fun v => Nat.eqb v 1) un true 100 un (mkP lp_s 0 (fresh (part lp_s) (fun v => mem v [0;1]%nat))) [(0%nat, fun _ => false); (1%nat, fun _ => false)].
Theorem C72_example : started aH lp_s /\ total_weight aH <= MAXW /\ (forall v, In v (nodes aH) -> 0 <= nw aH v) /\
  forall un, exists s' q' i', seq_lp aH 3 (fun _ => 10) (fun _ => 10) Okm1 (fun v => Nat.eqb v 1) un true 100 Z lp_imb Z.ltb (fun _ _ => false) true 0 (rebalancer aH (fun _ => 10) Okm1 (fun v => Nat.eqb v 1))
    1 [0;1]%nat lp_s (obj_spec Okm1 aH gcP) (lp_imb (map (block_weight aH gcP) (seq 0 3))) s' q' i' true /\ part s' 0%nat = Some 0%nat /\ part s' 1%nat = Some 0%nat /\ q' < obj_spec Okm1 aH gcP.
Proof.
  assert (S0 : started aH lp_s) by apply C71_example.
  split; [exact S0|]. split; [vm_compute; congruence|]. split; [intros v Hv; cbn in Hv; repeat (destruct Hv as [<-|Hv]; [vm_compute; congruence|]); destruct Hv|].
  intros un.
  assert (PH : exists s' d y, lp_res un = Some (mkP s' d y, [0%nat]) /\ part s' 0%nat = Some 0%nat /\ part s' 1%nat = Some 0%nat /\ d = -1 /\ isbal 3 (fun _ => 10) true 0 s' = true).
  { assert (V : match lp_res un with Some (x, m) => (part (l_s x) 0%nat, part (l_s x) 1%nat, l_d x, m, isbal 3 (fun _ => 10) true 0 (l_s x)) | None => (None, None, 0, [], false) end = (Some 0%nat, Some 0%nat, -1, [0%nat], true)) by (destruct un; vm_compute; reflexivity).
    destruct (lp_res un) as [[[s' d y] m]|]; [|discriminate]. cbn [l_s l_d] in V. injection V as V1 V2 V3 V4 V5. exists s', d, y. subst. auto. }
  destruct PH as (s' & d & y & E & P0 & P1 & -> & B).
  assert (SP : sphase aH (fun _ => 10) (fun _ => 10) Okm1 (fun v => Nat.eqb v 1) un true 100 un [0;1]%nat lp_s (fresh (part lp_s) (fun v => mem v [0;1]%nat)) s' (-1) [0%nat] y) by (exists [(0%nat, fun _ => false); (1%nat, fun _ => false)]; split; [reflexivity|exact E]).
  destruct un.
  - exists s'. eexists. eexists. split; [|split; [exact P0|split; [exact P1|]]].
    + unfold seq_lp. cbn [isnil negb andb]. eexists. exists (part lp_s). eexists. split; [reflexivity|]. split; [split; [reflexivity|auto]|]. split.
      * eapply L_next; [discriminate|eapply R_bal; [reflexivity|exact SP|exact B|reflexivity|reflexivity]|reflexivity|]. eapply L_stop. left. reflexivity.
      * cbn [LP.r_s LP.r_q LP.r_i]. split; [reflexivity|]. split; [reflexivity|]. split; [reflexivity|]. vm_compute. reflexivity.
    + vm_compute. reflexivity.
  - exists s'. eexists. eexists. split; [|split; [exact P0|split; [exact P1|]]].
    + unfold seq_lp. cbn [isnil negb andb]. eexists. exists (part lp_s). eexists. split; [reflexivity|]. split; [split; [reflexivity|discriminate]|]. split.
      * eapply L_next; [discriminate|eapply R_con; [reflexivity|exact SP|reflexivity]|reflexivity|]. eapply L_stop. left. reflexivity.
      * cbn [LP.r_s LP.r_q LP.r_i]. split; [reflexivity|]. split; [reflexivity|]. split; [reflexivity|]. vm_compute. reflexivity.
    + vm_compute. reflexivity.
Qed.
