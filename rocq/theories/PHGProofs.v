(** PHGProofs.v - proofs about the sequential partitioned hypergraph. *)
From Verif Require Import Base Spec SpecLemmas PHG.

Definition chg (b : bool) : Z := Z.b2z b.

(** The tracked state agrees with the hypergraph and the block ids it stores. *)
Record consistent (H : hypergraph) (s : phg) : Prop := {
  c_part : forall v b, part s v = Some b -> (b < pk s)%nat;
  c_wt   : forall b, (b < pk s)%nat -> wt s b = block_weight H (part s) b;
  c_pc   : forall e b, In e (edges H) -> (b < pk s)%nat -> pc s e b = pin_count H (part s) e b;
  c_cs   : forall e b, In e (edges H) -> (b < pk s)%nat -> cs s e b = (0 <? pc s e b)
}.

Lemma updateEdge_spec H s e from to :
  from <> to -> (from < pk s)%nat -> (to < pk s)%nat -> 0 < pc s e from -> 0 <= pc s e to ->
  exists s', updatePinCountOfHyperedge H s e from to =
    Some (s', mkSync e from to (ew H e) (Z.of_nat (length (pins H e))) (pc s e from - 1) (pc s e to + 1)) /\
  pk s' = pk s /\ part s' = part s /\ wt s' = wt s /\
  (forall e' b, pc s' e' b = pc s e' b + if Nat.eqb e' e then chg (Nat.eqb b to) - chg (Nat.eqb b from) else 0) /\
  (forall e' b, (cs s e' b = (0 <? pc s e' b)) -> cs s' e' b = (0 <? pc s' e' b)).
Proof.
  intros Hft Hf Ht Hpf Hpt. unfold updatePinCountOfHyperedge, decrementPinCountOfBlock.
  assert (E1 : (from <? pk s)%nat = true) by (apply Nat.ltb_lt; exact Hf).
  assert (E2 : (0 <? pc s e from) = true) by (apply Z.ltb_lt; exact Hpf).
  rewrite E1, E2. simpl andb. cbv iota.
  set (s1 := if pc s e from - 1 =? 0 then _ else _).
  assert (Hk1 : pk s1 = pk s) by (unfold s1; destruct (_ =? 0); reflexivity).
  assert (Hp1 : part s1 = part s) by (unfold s1; destruct (_ =? 0); reflexivity).
  assert (Hw1 : wt s1 = wt s) by (unfold s1; destruct (_ =? 0); reflexivity).
  assert (Hpc1 : forall a b, pc s1 a b = if Nat.eqb a e && Nat.eqb b from then pc s e from - 1 else pc s a b).
  { intros a b. unfold s1. destruct (_ =? 0); simpl; rewrite upd2_eq; reflexivity. }
  assert (Hcs1 : forall a b, cs s1 a b = if Nat.eqb a e && Nat.eqb b from && (pc s e from - 1 =? 0)
                                         then negb (cs s e from) else cs s a b).
  { intros a b. unfold s1. destruct (_ =? 0); simpl; [rewrite upd2_eq, andb_true_r | rewrite andb_false_r]; reflexivity. }
  clearbody s1.
  unfold incrementPinCountOfBlock.
  assert (E3 : (to <? pk s1)%nat = true) by (rewrite Hk1; apply Nat.ltb_lt; exact Ht). rewrite E3.
  assert (E4 : pc s1 e to = pc s e to).
  { rewrite Hpc1. replace (Nat.eqb to from) with false by lia. rewrite andb_false_r. reflexivity. }
  rewrite E4. set (s2 := if pc s e to + 1 =? 1 then _ else _).
  exists s2. split; [reflexivity|].
  split; [unfold s2; destruct (_ =? 1); simpl; exact Hk1|].
  split; [unfold s2; destruct (_ =? 1); simpl; exact Hp1|].
  split; [unfold s2; destruct (_ =? 1); simpl; exact Hw1|].
  assert (Hpc2 : forall a b, pc s2 a b = if Nat.eqb a e && Nat.eqb b to then pc s e to + 1 else pc s1 a b).
  { intros a b. unfold s2. destruct (_ =? 1); simpl; rewrite upd2_eq; reflexivity. }
  assert (Hcs2 : forall a b, cs s2 a b = if Nat.eqb a e && Nat.eqb b to && (pc s e to + 1 =? 1)
                                         then negb (cs s1 e to) else cs s1 a b).
  { intros a b. unfold s2. destruct (_ =? 1); simpl; [rewrite upd2_eq, andb_true_r | rewrite andb_false_r]; reflexivity. }
  clearbody s2.
  assert (Hpc : forall e' b, pc s2 e' b = pc s e' b + if Nat.eqb e' e then chg (Nat.eqb b to) - chg (Nat.eqb b from) else 0).
  { intros a b. rewrite Hpc2, Hpc1. unfold chg.
    destruct (Nat.eqb_spec a e) as [->|Ha]; simpl; [|lia].
    destruct (Nat.eqb_spec b to) as [->|Hb]; simpl.
    - replace (Nat.eqb to from) with false by lia. simpl. lia.
    - destruct (Nat.eqb_spec b from) as [->|Hb2]; simpl; lia. }
  split; [exact Hpc|].
  intros a b Hab. rewrite Hpc, Hcs2, !Hcs1. unfold chg.
  destruct (Nat.eqb_spec a e) as [->|Ha]; simpl.
  2:{ rewrite Z.add_0_r. exact Hab. }
  destruct (Nat.eqb_spec b to) as [->|Hb]; simpl.
  - replace (Nat.eqb to from) with false by lia. simpl. rewrite !andb_false_r. simpl.
    rewrite Hab. destruct (Z.eqb_spec (pc s e to + 1) 1); lia.
  - destruct (Nat.eqb_spec b from) as [->|Hb2]; simpl.
    + destruct (Z.eqb_spec (pc s e from - 1) 0); rewrite Hab; lia.
    + rewrite Hab. lia.
Qed.

Lemma updateEdges_spec H l : forall s from to,
  NoDup l -> from <> to -> (from < pk s)%nat -> (to < pk s)%nat ->
  (forall e, In e l -> 0 < pc s e from) -> (forall e, In e l -> 0 <= pc s e to) ->
  exists s', updateEdges H s l from to =
    Some (s', map (fun e => mkSync e from to (ew H e) (Z.of_nat (length (pins H e)))
                                   (pc s e from - 1) (pc s e to + 1)) l) /\
  pk s' = pk s /\ part s' = part s /\ wt s' = wt s /\
  (forall e b, pc s' e b = pc s e b + if mem e l then chg (Nat.eqb b to) - chg (Nat.eqb b from) else 0) /\
  (forall e b, (cs s e b = (0 <? pc s e b)) -> cs s' e b = (0 <? pc s' e b)).
Proof.
  induction l as [|e l IH]; intros s from to Hnd Hft Hf Ht Hpf Hpt.
  - exists s. simpl. repeat split; try reflexivity; intros; try assumption; try lia.
  - inversion Hnd as [|x y Hni Hnd']; subst.
    destruct (updateEdge_spec H s e from to Hft Hf Ht (Hpf e (or_introl eq_refl)) (Hpt e (or_introl eq_refl)))
      as (s1 & E1 & Hk1 & Hp1 & Hw1 & Hpc1 & Hcs1).
    assert (Hsame : forall e', In e' l -> forall b, pc s1 e' b = pc s e' b).
    { intros e' He' b. rewrite Hpc1. replace (Nat.eqb e' e) with false; [lia|].
      symmetry. apply Nat.eqb_neq. intros ->. contradiction. }
    destruct (IH s1 from to Hnd' Hft) as (s2 & E2 & Hk2 & Hp2 & Hw2 & Hpc2 & Hcs2).
    + rewrite Hk1; exact Hf.
    + rewrite Hk1; exact Ht.
    + intros e' He'. rewrite Hsame by exact He'. apply Hpf. right. exact He'.
    + intros e' He'. rewrite Hsame by exact He'. apply Hpt. right. exact He'.
    + exists s2. simpl updateEdges. rewrite E1, E2. split.
      * simpl. do 3 f_equal. apply map_ext_in. intros e' He'. rewrite !Hsame by exact He'. reflexivity.
      * split; [congruence|]. split; [congruence|]. split; [congruence|]. split.
        -- intros e' b. rewrite Hpc2, Hpc1. simpl mem. unfold mem. simpl existsb.
           destruct (Nat.eqb_spec e' e) as [->|Hne]; simpl.
           ++ replace (existsb (Nat.eqb e) l) with false; [lia|].
              symmetry. apply (proj2 (mem_false e l)). exact Hni.
           ++ fold (mem e' l). lia.
        -- intros e' b Hc. apply Hcs2, Hcs1, Hc.
Qed.

Lemma incrementEdges_spec l : forall s p,
  NoDup l -> (p < pk s)%nat -> (forall e, In e l -> 0 <= pc s e p) ->
  exists s', incrementEdges s l p = Some s' /\
  pk s' = pk s /\ part s' = part s /\ wt s' = wt s /\
  (forall e b, pc s' e b = pc s e b + if mem e l then chg (Nat.eqb b p) else 0) /\
  (forall e b, (cs s e b = (0 <? pc s e b)) -> cs s' e b = (0 <? pc s' e b)).
Proof.
  induction l as [|e l IH]; intros s p Hnd Hp Hpos.
  - exists s. simpl. repeat split; try reflexivity; intros; try assumption; try lia.
  - inversion Hnd as [|x y Hni Hnd']; subst. simpl incrementEdges. unfold incrementPinCountOfBlock at 1.
    assert (E3 : (p <? pk s)%nat = true) by (apply Nat.ltb_lt; exact Hp). rewrite E3.
    set (s1 := if pc s e p + 1 =? 1 then _ else _).
    assert (Hk1 : pk s1 = pk s) by (unfold s1; destruct (_ =? 1); reflexivity).
    assert (Hp1 : part s1 = part s) by (unfold s1; destruct (_ =? 1); reflexivity).
    assert (Hw1 : wt s1 = wt s) by (unfold s1; destruct (_ =? 1); reflexivity).
    assert (Hpc1 : forall a b, pc s1 a b = if Nat.eqb a e && Nat.eqb b p then pc s e p + 1 else pc s a b).
    { intros a b. unfold s1. destruct (_ =? 1); simpl; rewrite upd2_eq; reflexivity. }
    assert (Hcs1 : forall a b, cs s1 a b = if Nat.eqb a e && Nat.eqb b p && (pc s e p + 1 =? 1)
                                           then negb (cs s e p) else cs s a b).
    { intros a b. unfold s1. destruct (_ =? 1); simpl; [rewrite upd2_eq, andb_true_r | rewrite andb_false_r]; reflexivity. }
    clearbody s1.
    assert (Hsame : forall e', In e' l -> forall b, pc s1 e' b = pc s e' b).
    { intros e' He' b. rewrite Hpc1. replace (Nat.eqb e' e) with false; [reflexivity|].
      symmetry. apply Nat.eqb_neq. intros ->. contradiction. }
    destruct (IH s1 p Hnd') as (s2 & E2 & Hk2 & Hp2 & Hw2 & Hpc2 & Hcs2).
    + rewrite Hk1; exact Hp.
    + intros e' He'. rewrite Hsame by exact He'. apply Hpos. right. exact He'.
    + exists s2. rewrite E2. split; [reflexivity|].
      split; [congruence|]. split; [congruence|]. split; [congruence|]. split.
      * intros e' b. rewrite Hpc2, Hpc1. unfold mem, chg. simpl existsb.
        destruct (Nat.eqb_spec e' e) as [->|Hne]; simpl.
        -- replace (existsb (Nat.eqb e) l) with false.
           2:{ symmetry. apply (proj2 (mem_false e l)). exact Hni. }
           destruct (Nat.eqb_spec b p) as [->|Hb]; simpl; lia.
        -- fold (mem e' l). reflexivity.
      * intros e' b Hc. apply Hcs2. rewrite Hcs1, Hpc1.
        destruct (Nat.eqb_spec e' e) as [->|Hne]; simpl; [|exact Hc].
        destruct (Nat.eqb_spec b p) as [->|Hb]; simpl; [|exact Hc].
        specialize (Hpos e (or_introl eq_refl)).
        rewrite Hc. destruct (Z.eqb_spec (pc s e p + 1) 1); lia.
Qed.

Section WithH.
Variable H : hypergraph.
Hypothesis WF : wf_hg H.

Lemma mem_inc_pins u e : In u (nodes H) -> In e (edges H) -> mem e (inc H u) = mem u (pins H e).
Proof.
  intros Hu He. destruct (mem_spec u (pins H e)) as [Hi|Hi].
  - apply mem_In. apply (wf_inc H WF u e Hu). tauto.
  - apply mem_false. intros Hc. apply (wf_inc H WF u e Hu) in Hc. tauto.
Qed.

Lemma pin_count_pos_in P u e b :
  In u (pins H e) -> P u = Some b -> 0 < pin_count H P e b.
Proof. intros Hu Hb. apply pin_count_pos_iff. exists u. tauto. Qed.

(** Accepted move. *)
Lemma change_accept s u from to maxw :
  consistent H s -> In u (nodes H) -> part s u = Some from -> from <> to -> (to < pk s)%nat ->
  wt s to + nw H u <= maxw ->
  exists s', changeNodePart H s u from to maxw =
    Some (s', true, map (fun e => mkSync e from to (ew H e) (Z.of_nat (length (pins H e)))
               (pin_count H (part s) e from - 1) (pin_count H (part s) e to + 1)) (inc H u)) /\
    consistent H s' /\ pk s' = pk s /\ part s' = move (part s) u to.
Proof.
  intros C Hu Hpu Hft Ht Hw.
  assert (Hf : (from < pk s)%nat) by (eapply c_part; eauto).
  unfold changeNodePart.
  assert (E0 : in_block (part s) from u && negb (from =? to)%nat && (to <? pk s)%nat = true).
  { rewrite (proj2 (in_block_true _ _ _) Hpu). simpl.
    apply andb_true_iff. split; [|apply Nat.ltb_lt; exact Ht]. apply negb_true_iff, Nat.eqb_neq. exact Hft. }
  rewrite E0. replace (wt s to + nw H u <=? maxw) with true by lia.
  set (s1 := mkPHG _ _ _ _ _).
  assert (Hin : forall e, In e (inc H u) -> In e (edges H) /\ In u (pins H e)).
  { intros e He. apply (wf_inc H WF u e Hu) in He. exact He. }
  destruct (updateEdges_spec H (inc H u) s1 from to) as (s2 & E & Hk & Hp & Hwt & Hpc & Hcs).
  - apply wf_inc_nodup; assumption.
  - exact Hft.
  - exact Hf.
  - exact Ht.
  - intros e He. simpl. destruct (Hin e He) as [He1 He2]. rewrite (c_pc H s C e from He1 Hf).
    eapply pin_count_pos_in; eauto.
  - intros e He. simpl. destruct (Hin e He) as [He1 He2]. rewrite (c_pc H s C e to He1 Ht).
    apply pin_count_nonneg.
  - exists s2. rewrite E. split.
    { do 2 f_equal. apply map_ext_in. intros e He. simpl. destruct (Hin e He) as [He1 He2].
      rewrite (c_pc H s C e to He1 Ht), (c_pc H s C e from He1 Hf). reflexivity. }
    split; [|split; [exact Hk|exact Hp]].
    assert (Hpc' : forall e b, In e (edges H) -> (b < pk s)%nat -> pc s2 e b = pin_count H (move (part s) u to) e b).
    { intros e b He Hb. rewrite Hpc. simpl.
      rewrite (pin_count_move H (part s) u to e b (wf_pins_nodup H WF e He)).
      rewrite (c_pc H s C e b He Hb), (mem_inc_pins u e Hu He).
      destruct (mem u (pins H e)); [|reflexivity].
      unfold chg. rewrite (Nat.eqb_sym b to). f_equal. f_equal. f_equal.
      unfold in_block. rewrite Hpu. apply Nat.eqb_sym. }
    split.
    + intros v b. rewrite Hp, Hk. simpl. unfold upd.
      destruct (Nat.eqb v u); [intros [= <-]; exact Ht|apply (c_part H s C)].
    + intros b. rewrite Hp, Hk, Hwt. simpl. intros Hb.
      fold (move (part s) u to). rewrite block_weight_move by (try apply WF; assumption).
      rewrite <- (c_wt H s C b Hb). unfold upd.
      assert (Ein : in_block (part s) b u = Nat.eqb from b) by (unfold in_block; rewrite Hpu; reflexivity).
      rewrite Ein.
      destruct (Nat.eqb_spec b from) as [->|Hbf].
      * replace (Nat.eqb from to) with false by lia. replace (Nat.eqb to from) with false by lia.
        rewrite Nat.eqb_refl. simpl. lia.
      * replace (Nat.eqb from b) with false by lia. rewrite (Nat.eqb_sym to b).
        destruct (Nat.eqb_spec b to) as [->|Hbt]; simpl; lia.
    + intros e b He. rewrite Hk, Hp. simpl. intros Hb. apply Hpc'; assumption.
    + intros e b He. rewrite Hk. simpl. intros Hb. apply Hcs. simpl. apply (c_cs H s C); assumption.
Qed.

(** Rejected move: nothing observable changes. *)
Lemma change_reject s u from to maxw :
  part s u = Some from -> from <> to -> (to < pk s)%nat -> maxw < wt s to + nw H u ->
  exists s', changeNodePart H s u from to maxw = Some (s', false, []) /\
    pk s' = pk s /\ part s' = part s /\ (forall b, wt s' b = wt s b) /\ pc s' = pc s /\ cs s' = cs s.
Proof.
  intros Hpu Hft Ht Hw. unfold changeNodePart.
  assert (E0 : in_block (part s) from u && negb (from =? to)%nat && (to <? pk s)%nat = true).
  { rewrite (proj2 (in_block_true _ _ _) Hpu). simpl.
    apply andb_true_iff. split; [|apply Nat.ltb_lt; exact Ht]. apply negb_true_iff, Nat.eqb_neq. exact Hft. }
  rewrite E0. replace (wt s to + nw H u <=? maxw) with false by lia.
  eexists. split; [reflexivity|]. simpl. repeat split; try reflexivity.
  intros b. unfold upd. rewrite Nat.eqb_refl. destruct (Nat.eqb_spec b to) as [->|]; lia.
Qed.

Lemma consistent_same s s' :
  consistent H s -> pk s' = pk s -> part s' = part s -> (forall b, wt s' b = wt s b) -> pc s' = pc s -> cs s' = cs s ->
  consistent H s'.
Proof.
  intros C E1 E2 E3 E4 E5. constructor.
  - rewrite E1, E2. apply C.
  - intros b. rewrite E1, E2, E3. apply C.
  - intros e b. rewrite E1, E2, E4. apply C.
  - intros e b. rewrite E1, E4, E5. apply C.
Qed.

Lemma set_ok s u p :
  consistent H s -> In u (nodes H) -> part s u = None -> (p < pk s)%nat ->
  exists s', setNodePart H s u p = Some s' /\ consistent H s' /\ pk s' = pk s /\ part s' = move (part s) u p.
Proof.
  intros C Hu Hpu Hp. unfold setNodePart, setOnlyNodePart.
  assert (E0 : (p <? pk s)%nat = true) by (apply Nat.ltb_lt; exact Hp). rewrite E0, Hpu. simpl.
  set (s1 := mkPHG _ _ _ _ _).
  destruct (incrementEdges_spec (inc H u) s1 p) as (s2 & E & Hk & Hpt & Hwt & Hpc & Hcs).
  - apply wf_inc_nodup; assumption.
  - exact Hp.
  - intros e He. simpl. apply (wf_inc H WF u e Hu) in He. rewrite (c_pc H s C e p) by tauto. apply pin_count_nonneg.
  - exists s2. rewrite E. split; [reflexivity|]. split; [|split; [exact Hk|exact Hpt]].
    assert (Ein : forall b, in_block (part s) b u = false) by (intros b; unfold in_block; rewrite Hpu; reflexivity).
    constructor.
    + intros v b. rewrite Hpt, Hk. simpl. unfold upd. destruct (Nat.eqb v u); [intros [= <-]; exact Hp|apply (c_part H s C)].
    + intros b. rewrite Hpt, Hk, Hwt. simpl. intros Hb.
      fold (move (part s) u p). rewrite block_weight_move by (try apply WF; assumption).
      rewrite <- (c_wt H s C b Hb), Ein. unfold upd. rewrite (Nat.eqb_sym p b).
      destruct (Nat.eqb_spec b p) as [->|]; simpl; lia.
    + intros e b He. rewrite Hk, Hpt, Hpc. simpl. intros Hb. fold (move (part s) u p).
      rewrite (pin_count_move H (part s) u p e b (wf_pins_nodup H WF e He)).
      rewrite (c_pc H s C e b He Hb), (mem_inc_pins u e Hu He), Ein.
      destruct (mem u (pins H e)); [|reflexivity]. unfold chg. rewrite (Nat.eqb_sym b p). simpl. lia.
    + intros e b He. rewrite Hk. simpl. intros Hb. apply Hcs. simpl. apply (c_cs H s C); assumption.
Qed.

(** -------- initializePartition -------- *)

Lemma initBW_spec chunks : forall s s',
  initializeBlockWeights H s chunks = Some s' ->
  pk s' = pk s /\ part s' = part s /\ pc s' = pc s /\ cs s' = cs s /\
  (forall b, (b < pk s)%nat -> wt s' b = wt s b + chunkWeight H (part s) (concat chunks) b).
Proof.
  unfold initializeBlockWeights.
  induction chunks as [|c cs0 IH]; intros s s' E; simpl in E.
  - injection E as <-. repeat split; try reflexivity. intros. unfold chunkWeight. simpl. lia.
  - destruct (applyChunk H s c) as [s1|] eqn:E1; [|discriminate].
    unfold applyChunk in E1. destruct (forallb _ c) eqn:Ef; [|discriminate]. injection E1 as <-.
    apply IH in E. simpl in E. destruct E as (E2 & E3 & E4 & E5 & E6).
    repeat split; try assumption. intros b Hb. rewrite E6 by exact Hb.
    replace (b <? pk s)%nat with true by (symmetry; apply Nat.ltb_lt; exact Hb).
    unfold chunkWeight. simpl concat. rewrite sumZ_app. lia.
Qed.

Lemma initBW_ok chunks : forall s,
  (forall u, In u (concat chunks) -> exists b, part s u = Some b /\ (b < pk s)%nat) ->
  exists s', initializeBlockWeights H s chunks = Some s'.
Proof.
  unfold initializeBlockWeights.
  induction chunks as [|c cs0 IH]; intros s Hall; simpl.
  - eauto.
  - unfold applyChunk at 1.
    replace (forallb (assigned (part s) (pk s)) c) with true.
    2:{ symmetry. apply forallb_forall. intros u Hu. unfold assigned.
        destruct (Hall u) as [b [-> Hb]]; [simpl; apply in_or_app; tauto|]. apply Nat.ltb_lt; exact Hb. }
    apply IH. simpl. intros u Hu. apply Hall. simpl. apply in_or_app. tauto.
Qed.

Lemma writePositive_fold cnt e l : forall s,
  NoDup l ->
  let s' := fold_left (writePositive cnt e) l s in
  pk s' = pk s /\ part s' = part s /\ wt s' = wt s /\
  (forall a b, pc s' a b = if Nat.eqb a e && mem b l && (0 <? cnt b) then cnt b else pc s a b) /\
  (forall a b, cs s' a b = if Nat.eqb a e && mem b l && (0 <? cnt b) then negb (cs s a b) else cs s a b).
Proof.
  induction l as [|p l IH]; intros s Hnd; cbv zeta; simpl.
  - repeat split; try reflexivity; intros a b; rewrite andb_false_r; reflexivity.
  - inversion Hnd as [|x y Hni Hnd']; subst.
    destruct (IH (writePositive cnt e s p) Hnd') as (E1 & E2 & E3 & E4 & E5).
    rewrite E1, E2, E3.
    assert (Hpc : forall a b, pc (writePositive cnt e s p) a b =
              if Nat.eqb a e && Nat.eqb b p && (0 <? cnt p) then cnt p else pc s a b).
    { intros a b. unfold writePositive. destruct (0 <? cnt p); simpl;
        [rewrite upd2_eq, andb_true_r|rewrite andb_false_r]; reflexivity. }
    assert (Hcs : forall a b, cs (writePositive cnt e s p) a b =
              if Nat.eqb a e && Nat.eqb b p && (0 <? cnt p) then negb (cs s e p) else cs s a b).
    { intros a b. unfold writePositive. destruct (0 <? cnt p); simpl;
        [rewrite upd2_eq, andb_true_r|rewrite andb_false_r]; reflexivity. }
    split; [unfold writePositive; destruct (0 <? cnt p); reflexivity|].
    split; [unfold writePositive; destruct (0 <? cnt p); reflexivity|].
    split; [unfold writePositive; destruct (0 <? cnt p); reflexivity|].
    split; intros a b.
    + rewrite E4, Hpc. unfold mem. simpl existsb. destruct (Nat.eqb_spec a e) as [->|]; simpl; [|reflexivity].
      destruct (Nat.eqb_spec b p) as [->|]; simpl; [|reflexivity].
      rewrite (proj2 (mem_false p l) Hni : existsb (Nat.eqb p) l = false). reflexivity.
    + rewrite E5, Hcs. unfold mem. simpl existsb. destruct (Nat.eqb_spec a e) as [->|]; simpl; [|reflexivity].
      destruct (Nat.eqb_spec b p) as [->|]; simpl; [|reflexivity].
      rewrite (proj2 (mem_false p l) Hni : existsb (Nat.eqb p) l = false). reflexivity.
Qed.

Lemma mem_seq b k : (b < k)%nat -> mem b (seq 0 k) = true.
Proof. intros. apply mem_In, in_seq. lia. Qed.

Lemma localPinCount_eq P e p : localPinCount H P e p = pin_count H P e p.
Proof.
  unfold localPinCount. rewrite pin_count_sum. apply sumZ_ext. intros v _. destruct (in_block P p v); reflexivity.
Qed.

Lemma initPC_spec eo : forall s s',
  NoDup eo ->
  (forall e b, In e eo -> (b < pk s)%nat -> pc s e b = 0 /\ cs s e b = false) ->
  initializePinCountInPart H s eo = Some s' ->
  pk s' = pk s /\ part s' = part s /\ wt s' = wt s /\
  (forall e b, In e eo -> (b < pk s)%nat -> pc s' e b = pin_count H (part s) e b) /\
  (forall e b, In e eo -> (b < pk s)%nat -> cs s' e b = (0 <? pc s' e b)) /\
  (forall e b, ~ In e eo -> pc s' e b = pc s e b /\ cs s' e b = cs s e b).
Proof.
  unfold initializePinCountInPart.
  induction eo as [|e eo IH]; intros s s' Hnd Hz E; simpl in E.
  - injection E as <-. repeat split; try reflexivity; intros; contradiction.
  - destruct (initEdge H s e) as [s1|] eqn:E1; [|discriminate].
    unfold initEdge in E1. destruct (forallb _ (pins H e)) eqn:Ef; [|discriminate]. injection E1 as E1.
    inversion Hnd as [|x y Hni Hnd']; subst x y.
    destruct (writePositive_fold (localPinCount H (part s) e) e (seq 0 (pk s)) s (seq_NoDup _ _))
      as (F1 & F2 & F3 & F4 & F5).
    rewrite E1 in F1, F2, F3, F4, F5.
    apply IH in E; [|exact Hnd'|].
    + destruct E as (G1 & G2 & G3 & G4 & G5 & G6).
      split; [congruence|]. split; [congruence|]. split; [congruence|].
      assert (Hpce : forall b, (b < pk s)%nat -> pc s' e b = pin_count H (part s) e b).
      { intros b Hb. destruct (G6 e b Hni) as [-> _]. rewrite F4, Nat.eqb_refl, (mem_seq b _ Hb), localPinCount_eq.
        simpl. destruct (Hz e b (or_introl eq_refl) Hb) as [-> _].
        assert (Hnn := pin_count_nonneg H (part s) e b).
        destruct (Z.ltb_spec 0 (pin_count H (part s) e b)); lia. }
      repeat split.
      * intros e' b [<-|He'] Hb; [apply Hpce; exact Hb|]. rewrite G4 by (try rewrite F1; assumption). rewrite F2. reflexivity.
      * intros e' b [<-|He'] Hb.
        -- rewrite (Hpce b Hb). destruct (G6 e b Hni) as [_ ->].
           rewrite F5, Nat.eqb_refl, (mem_seq b _ Hb), localPinCount_eq. simpl.
           destruct (Hz e b (or_introl eq_refl) Hb) as [_ ->]. destruct (0 <? pin_count H (part s) e b); reflexivity.
        -- apply G5; [exact He'|rewrite F1; exact Hb].
      * destruct (G6 e0 b) as [-> _]; [simpl in H0; tauto|].
        rewrite F4. replace (Nat.eqb e0 e) with false; [reflexivity|].
        symmetry. apply Nat.eqb_neq. simpl in H0. intros ->. tauto.
      * destruct (G6 e0 b) as [_ ->]; [simpl in H0; tauto|].
        rewrite F5. replace (Nat.eqb e0 e) with false; [reflexivity|].
        symmetry. apply Nat.eqb_neq. simpl in H0. intros ->. tauto.
    + intros e' b He' Hb. rewrite F4, F5. replace (Nat.eqb e' e) with false.
      2:{ symmetry. apply Nat.eqb_neq. intros ->. contradiction. }
      simpl. apply Hz; [right; exact He'|rewrite <- F1; exact Hb].
Qed.

Lemma initPC_ok eo : forall s,
  (forall e v, In e eo -> In v (pins H e) -> exists b, part s v = Some b /\ (b < pk s)%nat) ->
  exists s', initializePinCountInPart H s eo = Some s'.
Proof.
  unfold initializePinCountInPart.
  induction eo as [|e eo IH]; intros s Hall; simpl; [eauto|].
  unfold initEdge at 1.
  replace (forallb (assigned (part s) (pk s)) (pins H e)) with true.
  2:{ symmetry. apply forallb_forall. intros v Hv. unfold assigned.
      destruct (Hall e v (or_introl eq_refl) Hv) as [b [-> Hb]]. apply Nat.ltb_lt; exact Hb. }
  destruct (writePositive_fold (localPinCount H (part s) e) e (seq 0 (pk s)) s (seq_NoDup _ _))
      as (F1 & F2 & F3 & F4 & F5).
  apply IH. rewrite F1, F2. intros e' v He'. apply Hall. right. exact He'.
Qed.

(** State reached by setOnlyNodePart calls only. *)
Record only_ids (s : phg) : Prop := {
  o_part : forall v b, part s v = Some b -> (b < pk s)%nat;
  o_wt : forall b, wt s b = 0;
  o_pc : forall e b, pc s e b = 0;
  o_cs : forall e b, cs s e b = false
}.

Lemma only_ids_init k : only_ids (phg_init k).
Proof. constructor; simpl; try reflexivity. discriminate. Qed.

Lemma init_ok s chunks eo :
  only_ids s -> complete H (part s) (pk s) ->
  Permutation (concat chunks) (nodes H) -> Permutation eo (edges H) ->
  exists s', initializePartition H s chunks eo = Some s' /\ consistent H s' /\ pk s' = pk s /\ part s' = part s.
Proof.
  intros O Hc Hn He. unfold initializePartition.
  destruct (initBW_ok chunks s) as [s1 E1].
  { intros u Hu. apply Hc. eapply Permutation_in; eauto. }
  rewrite E1. destruct (initBW_spec chunks s s1 E1) as (A1 & A2 & A3 & A4 & A5).
  destruct (initPC_ok eo s1) as [s2 E2].
  { intros e v Hee Hv. rewrite A2, A1. apply Hc. eapply (wf_pins_nodes H WF e); [|exact Hv].
    eapply Permutation_in; eauto. }
  rewrite E2. exists s2. split; [reflexivity|].
  destruct (initPC_spec eo s1 s2) as (B1 & B2 & B3 & B4 & B5 & B6).
  - eapply Permutation_NoDup; [apply Permutation_sym; exact He|apply WF].
  - intros e b _ _. rewrite A3, A4. split; [apply O|apply O].
  - exact E2.
  - split; [|split; congruence]. rewrite A1 in *. rewrite A2 in *.
    constructor.
    + rewrite B1, B2. apply O.
    + intros b Hb. rewrite B1 in Hb. rewrite B3, A5, B2, (o_wt s O) by exact Hb.
      unfold chunkWeight. rewrite (sumZ_perm _ _ _ Hn), block_weight_sum. lia.
    + intros e b Hee Hb. rewrite B1 in Hb. rewrite B2. apply B4; [|exact Hb].
      eapply Permutation_in; [apply Permutation_sym; exact He|exact Hee].
    + intros e b Hee Hb. rewrite B1 in Hb. apply B5; [|exact Hb].
      eapply Permutation_in; [apply Permutation_sym; exact He|exact Hee].
Qed.

(** A run that did not fault was total on the relevant sets. *)
Lemma init_some_complete s chunks eo s' :
  initializePartition H s chunks eo = Some s' -> Permutation (concat chunks) (nodes H) -> complete H (part s) (pk s).
Proof.
  unfold initializePartition. destruct (initializeBlockWeights H s chunks) as [s1|] eqn:E1; [|discriminate].
  intros _ Hn v Hv. assert (Hv' : In v (concat chunks)) by (eapply Permutation_in; [apply Permutation_sym; exact Hn|exact Hv]).
  clear Hn Hv. revert s s1 E1. unfold initializeBlockWeights.
  induction chunks as [|c cs0 IH]; intros s s1 E1; [destruct Hv'|].
  simpl in E1. destruct (applyChunk H s c) as [s0|] eqn:E0; [|discriminate].
  unfold applyChunk in E0. destruct (forallb _ c) eqn:Ef; [|discriminate]. injection E0 as E0.
  simpl in Hv'. apply in_app_or in Hv'. destruct Hv' as [Hv'|Hv'].
  - rewrite forallb_forall in Ef. specialize (Ef v Hv'). unfold assigned in Ef.
    destruct (part s v) as [b|]; [|discriminate]. exists b. split; [reflexivity|apply Nat.ltb_lt; exact Ef].
  - specialize (IH Hv' s0 s1 E1). rewrite <- E0 in IH. exact IH.
Qed.

End WithH.

(** ---- API histories: modes ---- *)
Inductive mode := MEmpty | MAssigning | MLive.
Definition api_next (m : mode) (o : phg_op) : option mode :=
  match o, m with
  | OReset, _ => Some MEmpty
  | OSetOnly _ _, (MEmpty | MAssigning) => Some MAssigning
  | OInit _ _, (MEmpty | MAssigning) => Some MLive
  | (OSet _ _ | OChange _ _ _ _), (MEmpty | MLive) => Some MLive
  | _, _ => None
  end.
Definition op_schedule_ok (H : hypergraph) (o : phg_op) : Prop :=
  match o with
  | OInit chunks eo => Permutation (concat chunks) (nodes H) /\ Permutation eo (edges H)
  | OSetOnly u _ | OSet u _ | OChange u _ _ _ => In u (nodes H)
  | OReset => True
  end.

Lemma only_ids_consistent H s : only_ids s -> (forall v, part s v = None) -> consistent H s.
Proof.
  intros O Hn. constructor.
  - apply O.
  - intros b _. rewrite (o_wt s O), block_weight_sum. symmetry. apply sumZ_zero. intros v _.
    unfold in_block. rewrite Hn. reflexivity.
  - intros e b _ _. rewrite (o_pc s O), pin_count_sum. symmetry. apply sumZ_zero. intros v _.
    unfold in_block. rewrite Hn. reflexivity.
  - intros e b _ _. rewrite (o_cs s O), (o_pc s O). reflexivity.
Qed.

Definition mode_inv (H : hypergraph) (m : mode) (s : phg) : Prop :=
  match m with
  | MEmpty => only_ids s /\ (forall v, part s v = None)
  | MAssigning => only_ids s
  | MLive => consistent H s
  end.

Lemma mode_inv_step H m o m' s s' :
  wf_hg H -> mode_inv H m s -> api_next m o = Some m' -> op_schedule_ok H o -> phg_step H s o = Some s' ->
  mode_inv H m' s' /\ pk s' = pk s.
Proof.
  intros WF Hinv Hm Hok Hs.
  assert (Hcons : m = MEmpty \/ m = MLive -> consistent H s).
  { intros [->| ->]; simpl in Hinv; [apply only_ids_consistent; tauto|exact Hinv]. }
  destruct o as [u p|chunks eo|u p|u f t mw|]; simpl in Hs, Hok.
  - (* OSetOnly *)
    assert (m' = MAssigning /\ only_ids s) as [-> O].
    { destruct m; simpl in Hm; try discriminate; injection Hm as <-; simpl in Hinv; tauto. }
    unfold setOnlyNodePart in Hs. destruct (p <? pk s)%nat eqn:Ep; [|discriminate].
    destruct (part s u); [discriminate|]. injection Hs as <-. simpl. split; [|reflexivity].
    constructor; simpl; try apply O. intros v b. unfold upd.
    destruct (Nat.eqb v u); [intros [= <-]; apply Nat.ltb_lt; exact Ep|apply O].
  - assert (m' = MLive /\ only_ids s) as [-> O].
    { destruct m; simpl in Hm; try discriminate; injection Hm as <-; simpl in Hinv; tauto. }
    destruct Hok as [Hn He].
    pose proof (init_some_complete H s chunks eo s' Hs Hn) as Hc.
    destruct (init_ok H WF s chunks eo O Hc Hn He) as (s2 & E & C & Ek & _).
    rewrite Hs in E. injection E as <-. simpl. tauto.
  - assert (m' = MLive /\ consistent H s) as [-> C].
    { destruct m; simpl in Hm; try discriminate; injection Hm as <-; split; auto. }
    assert (Hpre : (p < pk s)%nat /\ part s u = None).
    { unfold setNodePart, setOnlyNodePart in Hs. destruct (p <? pk s)%nat eqn:Ep; [|discriminate].
      destruct (part s u); [discriminate|]. split; [apply Nat.ltb_lt; exact Ep|reflexivity]. }
    destruct (set_ok H WF s u p C Hok (proj2 Hpre) (proj1 Hpre)) as (s2 & E & C2 & Ek & _).
    rewrite Hs in E. injection E as <-. simpl. tauto.
  - assert (m' = MLive /\ consistent H s) as [-> C].
    { destruct m; simpl in Hm; try discriminate; injection Hm as <-; split; auto. }
    destruct (changeNodePart H s u f t mw) as [[[s2 ok] sus]|] eqn:E; [|discriminate]. injection Hs as <-.
    assert (Hpre : part s u = Some f /\ f <> t /\ (t < pk s)%nat).
    { unfold changeNodePart in E. destruct (_ && _ && _) eqn:Eg; [|discriminate].
      apply andb_true_iff in Eg. destruct Eg as [Eg E3]. apply andb_true_iff in Eg. destruct Eg as [E1 E2].
      apply in_block_true in E1. apply negb_true_iff, Nat.eqb_neq in E2. apply Nat.ltb_lt in E3. tauto. }
    destruct Hpre as (Hp & Hft & Ht).
    destruct (Z_le_gt_dec (wt s t + nw H u) mw) as [Hle|Hgt].
    + destruct (change_accept H WF s u f t mw C Hok Hp Hft Ht Hle) as (s3 & E3 & C3 & Ek & _).
      rewrite E in E3. injection E3 as <- _ _. simpl. tauto.
    + destruct (change_reject H s u f t mw Hp Hft Ht ltac:(lia)) as (s3 & E3 & Ek & Ep & Ew & Epc & Ecs).
      rewrite E in E3. injection E3 as <- _ _. simpl. split; [|exact Ek]. eapply consistent_same; eauto.
  - injection Hs as <-. destruct m; injection Hm as <-; (split; [|reflexivity]); simpl; (split; [apply only_ids_init|reflexivity]).
Qed.

(** Run of a mode automaton over a history. *)
Definition api_run (m : mode) (l : list phg_op) : option mode := fold_opt api_next m l.

Lemma history_inv H l : forall m m' s s',
  wf_hg H -> mode_inv H m s -> api_run m l = Some m' -> Forall (op_schedule_ok H) l -> phg_run H s l = Some s' ->
  mode_inv H m' s' /\ pk s' = pk s.
Proof.
  induction l as [|o l IH]; intros m m' s s' WF Hinv Hm Hok Hs; unfold api_run, phg_run in *; simpl in *.
  - injection Hm as <-. injection Hs as <-. tauto.
  - destruct (api_next m o) as [m1|] eqn:E1; [|discriminate].
    destruct (phg_step H s o) as [s1|] eqn:E2; [|discriminate].
    inversion Hok as [|x y Ho Hl]; subst.
    destruct (mode_inv_step H m o m1 s s1 WF Hinv E1 Ho E2) as [I1 K1].
    destruct (IH m1 m' s1 s' WF I1 Hm Hl Hs) as [I2 K2]. split; [exact I2|congruence].
Qed.
