(** Fixed2.v - fixed vertices, continued: undoing contractions, attaching fixed vertices (addFixedVertices), projection
    onto the coarse hypergraph, and the final enforcement (forceFixedVertexAssignment). *)
From Verif Require Import Base Spec SpecLemmas WfCheck PHG PHGProofs Objective GainCache GainCacheProofs Conc ConcProofs ConcMore ConcRun PropsA Rollback RollbackProofs Scan Revert Fixed.

(** *** Zero-weight fixed vertices are not protected *)
(** Nodes 0 and 1 have weight 0 and are fixed to different blocks, node 2 is free. *)
Definition zeroS : fst_ :=
  mkF (fun v => match v with 0%nat => Some 0%nat | 1%nat => Some 1%nat | _ => None end) (fun v => if (v <? 2)%nat then 1%nat else 0%nat)
      (fun _ => 0) (fun _ => 0) 0 (fun v => if (v =? 2)%nat then 5 else 0) (fun _ => true) [] (fun v => v).
Theorem C21_refuted_zero_weight :
  exists s0 s Max, finit [0;1;2]%nat (f_block s0) s0 /\ (forall b, fixed_weight [0;1;2]%nat s0 b <= Max b) /\
    freach [0;1;2]%nat Max s0 s /\ f_block s0 0%nat = Some 0%nat /\ f_block s0 1%nat = Some 1%nat /\ f_rep s 1%nat = f_rep s 0%nat.
Proof.
  exists zeroS, (merge zeroS 0 1), (fun _ => 100). split; [|split; [|split; [|split; [|split]]]]; try reflexivity.
  - constructor; try reflexivity.
    + intros b. unfold fixed_weight, fixed_in, zeroS; simpl. destruct b as [|[|b]]; reflexivity.
    + intros v Hv. unfold zeroS; simpl. destruct (v =? 2)%nat; lia.
    + intros v Hv. simpl in Hv. destruct Hv as [<-|[<-|[<-|[]]]]; reflexivity.
  - intros b. unfold fixed_weight, fixed_in, zeroS; simpl. destruct b as [|[|b]]; simpl; lia.
  - apply (fr_step _ _ zeroS zeroS); [apply fr_refl|].
    refine (fs_done _ _ zeroS 0 1 zeroS true _ _ _ _ _ _ _ _); simpl; auto.
Qed.

(** *** Undoing contractions (n-level uncoarsening) *)
(** DynamicHypergraph::uncontract of one memento: dynamic_hypergraph.cpp:150-162 and FixedVertexSupport::uncontract
    (fixed_vertex_support.cpp:135-165). *)
Definition uncontract_fixed (s : fst_) (u v : nat) : fst_ :=
  match f_block s v with
  | None => s
  | Some bv =>
    if (0 <? f_cnt s v)%nat then
      let cu := Nat.pred (f_cnt s u) in
      if (cu =? 0)%nat then
        match f_block s u with
        | Some bu => mkF (upd (f_block s) u None) (upd (f_cnt s) u cu) (f_fw s) (upd (f_bw s) bu (f_bw s bu - f_fw s u))
                         (f_total s - f_fw s u) (f_nw s) (f_on s) (f_pend s) (f_rep s)
        | None => s
        end
      else mkF (f_block s) (upd (f_cnt s) u cu) (f_fw s) (f_bw s) (f_total s) (f_nw s) (f_on s) (f_pend s) (f_rep s)
    else mkF (upd (f_block s) v None) (f_cnt s) (f_fw s) (upd (f_bw s) bv (f_bw s bv - f_fw s v))
             (f_total s - f_fw s v) (f_nw s) (f_on s) (f_pend s) (f_rep s)
  end.
Definition uncontract (s : fst_) (u v : nat) : fst_ :=
  let s1 := mkF (f_block s) (f_cnt s) (f_fw s) (f_bw s) (f_total s) (upd (f_nw s) u (f_nw s u - f_nw s v)) (upd (f_on s) v true) (f_pend s) (f_rep s) in
  if hasFixedVertices s1 then uncontract_fixed s1 u v else s1.

(** Contraction without interleaving: result and whether it was performed. *)
Definition contract_seq (Max : nat -> Z) (s : fst_) (u v : nat) : fst_ * bool :=
  match gated_begin s u v with
  | (s1, Some ok) => (if ok then merge s1 u v else s1, ok)
  | (s1, None) => match f_pend s1 with
                  | p :: rest => let '(s2, ok) := contract_end Max s1 p rest in (if ok then merge s2 u v else s2, ok)
                  | [] => (s1, false)
                  end
  end.
(** Same observable state: fixed block of every node, fixed weights of blocks and total, node weights, enabled nodes
    (and the internal counters). *)
Record obs_eq (s t : fst_) : Prop := {
  oe_block : forall v, f_block s v = f_block t v;
  oe_cnt : forall v, f_cnt s v = f_cnt t v;
  oe_bw : forall b, f_bw s b = f_bw t b;
  oe_total : f_total s = f_total t;
  oe_nw : forall v, f_nw s v = f_nw t v;
  oe_on : forall v, f_on s v = f_on t v;
  oe_fw : forall v, isFixed s v = true -> f_fw s v = f_fw t v
}.
Lemma obs_refl s : obs_eq s s. Proof. constructor; reflexivity. Qed.

Lemma uncontract_obs s t u v : obs_eq s t -> obs_eq (uncontract s u v) (uncontract t u v).
Proof.
  intros [O1 O2 O3 O4 O5 O6 O7]. unfold uncontract.
  set (s1 := mkF (f_block s) _ _ _ _ _ _ _ _). set (t1 := mkF (f_block t) _ _ _ _ _ _ _ _).
  assert (E : obs_eq s1 t1).
  { unfold s1, t1; constructor; cbn [f_block f_cnt f_bw f_total f_nw f_on f_fw]; try assumption; intros x; unfold upd.
    - rewrite !O5. reflexivity.
    - rewrite !O6. reflexivity. }
  clearbody s1 t1. clear -E. destruct E as [O1 O2 O3 O4 O5 O6 O7].
  unfold hasFixedVertices. rewrite <- O4. destruct (0 <? f_total s1); [|constructor; assumption].
  unfold uncontract_fixed. rewrite <- O1. destruct (f_block s1 v) as [bv|] eqn:Ev; [|constructor; assumption].
  rewrite <- !O2. destruct (0 <? f_cnt s1 v)%nat.
  - destruct (Nat.pred (f_cnt s1 u) =? 0)%nat.
    + rewrite <- O1. destruct (f_block s1 u) as [bu|] eqn:Eu; [|constructor; assumption].
      assert (Ef : f_fw s1 u = f_fw t1 u) by (apply O7; unfold isFixed; rewrite Eu; reflexivity).
      constructor; cbn [f_block f_cnt f_bw f_total f_nw f_on f_fw]; try assumption; try (intros x; unfold upd).
      * rewrite !O1. reflexivity.
      * rewrite !O2. reflexivity.
      * rewrite !O3, Ef. reflexivity.
      * lia.
      * unfold isFixed; cbn [f_block]. destruct (Nat.eqb x u); [discriminate|]. apply O7.
    + constructor; cbn [f_block f_cnt f_bw f_total f_nw f_on f_fw]; try assumption. intros x; unfold upd. rewrite !O2. reflexivity.
  - assert (Ef : f_fw s1 v = f_fw t1 v) by (apply O7; unfold isFixed; rewrite Ev; reflexivity).
    constructor; cbn [f_block f_cnt f_bw f_total f_nw f_on f_fw]; try assumption; try (intros x; unfold upd).
    + rewrite !O1. reflexivity.
    + rewrite !O3, Ef. reflexivity.
    + lia.
    + unfold isFixed; cbn [f_block]. destruct (Nat.eqb x v); [discriminate|]. apply O7.
Qed.

Lemma obs_trans s t r : obs_eq s t -> obs_eq t r -> obs_eq s r.
Proof.
  intros [O1 O2 O3 O4 O5 O6 O7] [P1 P2 P3 P4 P5 P6 P7]. constructor; intros.
  - rewrite O1; apply P1.
  - rewrite O2; apply P2.
  - rewrite O3; apply P3.
  - rewrite O4; apply P4.
  - rewrite O5; apply P5.
  - rewrite O6; apply P6.
  - rewrite O7 by assumption. apply P7. unfold isFixed in *. rewrite <- O1. assumption.
Qed.

Section Undo.
Variables (V : list nat) (Max : nat -> Z) (F0 : nat -> option nat).
Hypothesis V_nodup : NoDup V.

Lemma contract_seq_undo s u v s' :
  finv V F0 s -> In u V -> In v V -> u <> v -> f_on s u = true -> f_on s v = true -> 0 < f_total s ->
  contract_seq Max s u v = (s', true) -> obs_eq (uncontract s' u v) s.
Proof.
  intros I Hu Hv Huv Hou Hov Hpos Hc.
  pose proof (iv_cnt _ _ _ I u Hu Hou) as Cu. pose proof (iv_cnt _ _ _ I v Hv Hov) as Cv.
  pose proof (iv_nw _ _ _ I u Hu) as Wu. pose proof (iv_nw _ _ _ I v Hv) as Wv.
  assert (Hg : hasFixedVertices s = true) by (apply Z.ltb_lt; exact Hpos).
  assert (Euv : Nat.eqb u v = false) by (apply Nat.eqb_neq; exact Huv).
  assert (Evu : Nat.eqb v u = false) by (apply Nat.eqb_neq; congruence).
  unfold contract_seq, gated_begin in Hc. rewrite Hg in Hc. unfold contract_begin in Hc. clear Hg.
  destruct s as [bl cn fw bw tot w on pe rp]; cbn [f_block f_cnt f_bw f_total f_nw f_on f_fw f_pend f_rep] in *.
  destruct (bl u) as [a|] eqn:Bu, (bl v) as [b|] eqn:Bv.
  - destruct (Nat.eqb_spec a b) as [->|]; [|discriminate]. injection Hc as <-.
    unfold uncontract, merge, hasFixedVertices, uncontract_fixed; cbn [f_block f_cnt f_bw f_total f_nw f_on f_fw f_pend f_rep].
    replace (0 <? tot) with true by lia. rewrite Bv. unfold upd at 1. rewrite Evu.
    assert (cn v <> 0%nat) by (intros X; apply Cv in X; discriminate).
    assert (cn u <> 0%nat) by (intros X; apply Cu in X; discriminate).
    replace (0 <? cn v)%nat with true by (symmetry; apply Nat.ltb_lt; lia). rewrite upd_same.
    cbn [Nat.pred]. replace (cn u =? 0)%nat with false by (symmetry; apply Nat.eqb_neq; lia).
    constructor; cbn [f_block f_cnt f_bw f_total f_nw f_on f_fw]; try reflexivity; intros x; unfold upd.
    + destruct (Nat.eqb_spec x u) as [->|]; reflexivity.
    + rewrite ?Nat.eqb_refl, ?Evu. destruct (Nat.eqb_spec x u) as [->|]; rewrite ?Nat.eqb_refl, ?Evu; lia.
    + destruct (Nat.eqb_spec x v) as [->|]; congruence.
  - unfold contract_end in Hc; cbn [p_after p_blk p_ubf p_u p_v p_delta f_pend f_block f_cnt f_bw f_total f_nw f_on f_fw f_rep] in Hc.
    destruct (_ <=? _); [|discriminate]. injection Hc as <-.
    unfold uncontract, merge, hasFixedVertices, uncontract_fixed; cbn [f_block f_cnt f_bw f_total f_nw f_on f_fw f_pend f_rep].
    replace (0 <? tot + w v) with true by lia. rewrite !upd_same.
    assert (Cv0 : cn v = 0%nat) by (apply Cv; reflexivity). rewrite Cv0. cbn [Nat.ltb Nat.leb].
    constructor; cbn [f_block f_cnt f_bw f_total f_nw f_on f_fw]; try reflexivity; try (intros x; unfold upd).
    + destruct (Nat.eqb_spec x v) as [->|]; congruence.
    + rewrite ?Nat.eqb_refl, ?Evu. destruct (Nat.eqb_spec x a) as [->|]; rewrite ?Nat.eqb_refl, ?Evu; lia.
    + lia.
    + rewrite ?Nat.eqb_refl, ?Evu. destruct (Nat.eqb_spec x u) as [->|]; rewrite ?Nat.eqb_refl, ?Evu; lia.
    + destruct (Nat.eqb_spec x v) as [->|]; congruence.
    + unfold isFixed; cbn [f_block]. unfold upd. destruct (Nat.eqb_spec x v) as [->|]; [discriminate|]. reflexivity.
  - unfold contract_end in Hc; cbn [p_after p_blk p_ubf p_u p_v p_delta f_pend f_block f_cnt f_bw f_total f_nw f_on f_fw f_rep] in Hc.
    destruct (_ <=? _); [|discriminate]. injection Hc as <-.
    unfold uncontract, merge, hasFixedVertices, uncontract_fixed; cbn [f_block f_cnt f_bw f_total f_nw f_on f_fw f_pend f_rep].
    replace (0 <? tot + w u) with true by lia. rewrite !upd_same, !(upd_other _ _ v) by congruence. rewrite Bv.
    assert (cn v <> 0%nat) by (intros X; apply Cv in X; discriminate).
    replace (0 <? cn v)%nat with true by (symmetry; apply Nat.ltb_lt; lia). cbn [Nat.pred Nat.eqb].
    assert (Cu0 : cn u = 0%nat) by (apply Cu; reflexivity).
    constructor; cbn [f_block f_cnt f_bw f_total f_nw f_on f_fw]; try reflexivity; try (intros x; unfold upd).
    + destruct (Nat.eqb_spec x u) as [->|]; congruence.
    + destruct (Nat.eqb_spec x u) as [->|]; congruence.
    + rewrite ?Nat.eqb_refl, ?Evu. destruct (Nat.eqb_spec x b) as [->|]; rewrite ?Nat.eqb_refl, ?Evu; lia.
    + lia.
    + rewrite ?Nat.eqb_refl, ?Evu. destruct (Nat.eqb_spec x u) as [->|]; rewrite ?Nat.eqb_refl, ?Evu; lia.
    + destruct (Nat.eqb_spec x v) as [->|]; congruence.
    + unfold isFixed; cbn [f_block]. unfold upd. destruct (Nat.eqb_spec x u) as [->|]; [discriminate|]. reflexivity.
  - injection Hc as <-.
    unfold uncontract, merge, hasFixedVertices, uncontract_fixed; cbn [f_block f_cnt f_bw f_total f_nw f_on f_fw f_pend f_rep].
    replace (0 <? tot) with true by lia. rewrite Bv.
    constructor; cbn [f_block f_cnt f_bw f_total f_nw f_on f_fw]; try reflexivity; intros x; unfold upd.
    + rewrite ?Nat.eqb_refl, ?Evu. destruct (Nat.eqb_spec x u) as [->|]; rewrite ?Nat.eqb_refl, ?Evu; lia.
    + destruct (Nat.eqb_spec x v) as [->|]; congruence.
Qed.

(** A contraction run to completion is two steps (or one) of the interleaved semantics. *)
Lemma contract_seq_reach s u v s' ok :
  In u V -> In v V -> u <> v -> f_on s u = true -> f_on s v = true -> f_pend s = [] ->
  contract_seq Max s u v = (s', ok) -> freach V Max s s' /\ f_pend s' = [].
Proof.
  intros Hu Hv Huv Hou Hov Hp Hc. unfold contract_seq in Hc.
  assert (B : forall x, busy s x = false) by (intros x; unfold busy; rewrite Hp; reflexivity).
  destruct (gated_begin s u v) as [s1 d] eqn:Eb. destruct d as [ok1|].
  - injection Hc as <- <-. split.
    + apply (fr_step _ _ s s); [apply fr_refl|]. apply (fs_done V Max s u v s1 ok1); auto.
    + unfold gated_begin, contract_begin in Eb. destruct (hasFixedVertices s).
      * destruct (f_block s u), (f_block s v); try discriminate; try destruct (Nat.eqb _ _); inversion Eb; subst; try destruct ok1; cbn [merge f_pend]; exact Hp.
      * inversion Eb; subst. exact Hp.
  - assert (Hs : f_pend s1 <> [] -> exists p, f_pend s1 = [p] /\ p_u p = u /\ p_v p = v).
    { unfold gated_begin, contract_begin in Eb. destruct (hasFixedVertices s); [|discriminate].
      destruct (f_block s u), (f_block s v); try discriminate; try destruct (Nat.eqb _ _); inversion Eb; subst; cbn [f_pend]; rewrite Hp; eauto. }
    assert (Ht : freach V Max s s1) by (apply (fr_step _ _ s s); [apply fr_refl|]; apply (fs_add V Max s u v s1); auto).
    destruct (f_pend s1) as [|p rest] eqn:Ep; [injection Hc as <- <-; split; [exact Ht|exact Ep]|].
    destruct Hs as [p' [E1 [E2 E3]]]; [discriminate|]. injection E1 as -> ->.
    destruct (contract_end Max s1 p' []) as [s2 ok2] eqn:Ee. injection Hc as <- <-. split.
    + apply (fr_step _ _ s s1); [exact Ht|]. rewrite <- E2, <- E3. apply (fs_decide V Max s1 p' [] [] s2 ok2); [exact Ep|exact Ee].
    + unfold contract_end in Ee. destruct (_ <=? _); [destruct (p_ubf p')|]; inversion Ee; subst; reflexivity.
Qed.

(** A sequence of attempted contractions; returns the final state and the performed ones, last first (mementos). *)
Fixpoint contract_all (s : fst_) (ms : list (nat * nat)) (done : list (nat * nat)) : fst_ * list (nat * nat) :=
  match ms with
  | [] => (s, done)
  | (u, v) :: r =>
    if f_on s u && f_on s v && negb (Nat.eqb u v) && mem u V && mem v V then
      let '(s', ok) := contract_seq Max s u v in contract_all s' r (if ok then (u, v) :: done else done)
    else contract_all s r done
  end.
Definition uncontract_all (s : fst_) (done : list (nat * nat)) : fst_ := fold_left (fun s m => uncontract s (fst m) (snd m)) done s.

Lemma uncontract_all_obs done : forall s t, obs_eq s t -> obs_eq (uncontract_all s done) (uncontract_all t done).
Proof.
  induction done as [|m done IH]; intros s t E; [exact E|]. cbn [uncontract_all fold_left]. apply IH. apply uncontract_obs. exact E.
Qed.


Lemma contract_all_spec ms : forall s done s' done', contract_all s ms done = (s', done') ->
  f_pend s = [] -> 0 < f_total s -> finv V F0 s -> limit_inv V Max s ->
  freach V Max s s' /\ exists new, done' = new ++ done /\ obs_eq (uncontract_all s' new) s.
Proof.
  induction ms as [|[u v] ms IH]; intros s done s' done' Hc Hp Hpos I L; cbn [contract_all] in Hc.
  - injection Hc as <- <-. split; [apply fr_refl|]. exists []. split; [reflexivity|apply obs_refl].
  - destruct (_ && _) eqn:G; [|apply (IH _ _ _ _ Hc Hp Hpos I L)].
    apply andb_true_iff in G. destruct G as [G Gv]. apply andb_true_iff in G. destruct G as [G Gu].
    apply andb_true_iff in G. destruct G as [G Gn]. apply andb_true_iff in G. destruct G as [Gou Gov].
    apply mem_In in Gu, Gv. apply negb_true_iff, Nat.eqb_neq in Gn.
    destruct (contract_seq Max s u v) as [s1 ok] eqn:E1.
    destruct (contract_seq_reach s u v s1 ok Gu Gv Gn Gou Gov Hp E1) as [R1 P1].
    destruct (freach_inv V Max F0 V_nodup s s1 R1 Hpos I L) as [Hpos1 [I1 L1]].
    destruct (IH _ _ _ _ Hc P1 Hpos1 I1 L1) as [R2 [new [En O]]]. split.
    + clear -R1 R2. induction R2 as [x|a b c R2 IH S]; [exact R1|]. eapply fr_step; [apply IH; exact R1|exact S].
    + destruct ok.
      * exists (new ++ [(u, v)]). split; [rewrite En, <- app_assoc; reflexivity|].
        unfold uncontract_all. rewrite fold_left_app. cbn [fold_left fst snd]. fold (uncontract_all s' new).
        eapply obs_trans; [apply uncontract_obs; exact O|].
        apply (contract_seq_undo s u v s1 I Gu Gv Gn Gou Gov Hpos E1).
      * exists new. split; [exact En|]. eapply obs_trans; [exact O|]. clear -E1 Hp I Gu Gov Gou Gv.
        (* a rejected contraction leaves the state unchanged *)
        unfold contract_seq, gated_begin, contract_begin in E1. destruct s as [bl cn fw bw tot w on pe rp].
        cbn [f_block f_cnt f_bw f_total f_nw f_on f_fw f_pend f_rep] in *. subst pe.
        destruct (hasFixedVertices _); [|discriminate].
        destruct (bl u) as [a|] eqn:Bu, (bl v) as [b|] eqn:Bv; cbn [f_pend] in E1.
        -- destruct (Nat.eqb a b); inversion E1; subst; apply obs_refl.
        -- unfold contract_end in E1; cbn [p_after p_blk p_ubf p_u p_v p_delta f_pend f_block f_cnt f_bw f_total f_nw f_on f_fw f_rep] in E1.
           destruct (_ <=? _); inversion E1; subst.
           constructor; cbn [f_block f_cnt f_bw f_total f_nw f_on f_fw]; try reflexivity.
           intros x; unfold upd. rewrite ?Nat.eqb_refl, ?Evu. destruct (Nat.eqb_spec x a) as [->|]; rewrite ?Nat.eqb_refl, ?Evu; lia.
        -- unfold contract_end in E1; cbn [p_after p_blk p_ubf p_u p_v p_delta f_pend f_block f_cnt f_bw f_total f_nw f_on f_fw f_rep] in E1.
           destruct (_ <=? _); inversion E1; subst.
           constructor; cbn [f_block f_cnt f_bw f_total f_nw f_on f_fw]; try reflexivity.
           intros x; unfold upd. rewrite ?Nat.eqb_refl, ?Evu. destruct (Nat.eqb_spec x b) as [->|]; rewrite ?Nat.eqb_refl, ?Evu; lia.
        -- discriminate.
Qed.

(** C21 (uncoarsening): after any sequence of attempted contractions, undoing the performed ones in reverse order
    restores for every node whether and where it is fixed, its weight, which nodes are enabled, and all fixed weights. *)
Theorem C21_uncontract_restores s0 ms s done :
  finit V F0 s0 -> 0 < all_fixed_weight V s0 -> (forall b, fixed_weight V s0 b <= Max b) ->
  contract_all s0 ms [] = (s, done) ->
  let r := uncontract_all s done in
  (forall v, f_block r v = f_block s0 v) /\ (forall v, f_nw r v = f_nw s0 v) /\ (forall v, f_on r v = f_on s0 v) /\
  (forall b, f_bw r b = f_bw s0 b) /\ f_total r = f_total s0.
Proof.
  intros J Hpos Hlim Hc. destruct (contract_all_spec ms s0 [] s done Hc) as [_ [new [En O]]].
  - apply (fi_pend _ _ _ J).
  - rewrite (fi_total _ _ _ J). exact Hpos.
  - apply (finit_inv V Max F0 s0 J).
  - intros b. rewrite (fi_pend _ _ _ J). unfold good_weight. simpl. specialize (Hlim b). lia.
  - rewrite app_nil_r in En. subst new. destruct O. auto.
Qed.
End Undo.

(** A concrete run: node 0 fixed to block 0, node 1 to block 1.  Contracting 0 onto the free node 2 fixes 2; contracting 1 onto
    2 is rejected; contracting the free node 3 onto 2 makes the weight fixed to block 0 grow; node 4 does not fit. *)
Definition exF0 (v : nat) : option nat := match v with 0%nat => Some 0%nat | 1%nat => Some 1%nat | _ => None end.
Definition exFw (v : nat) : Z := match v with 4%nat => 9 | _ => 1 end.
Definition exFs : fst_ :=
  mkF exF0 (fun v => if (v <? 2)%nat then 1%nat else 0%nat) exFw (fun b => if (b <? 2)%nat then 1 else 0) 2 exFw (fun _ => true) [] (fun v => v).
Example ex_fixed :
  finit [0;1;2;3;4]%nat exF0 exFs /\ 0 < all_fixed_weight [0;1;2;3;4]%nat exFs /\ (forall b, fixed_weight [0;1;2;3;4]%nat exFs b <= 5) /\
  let '(s, done) := contract_all [0;1;2;3;4]%nat (fun _ => 5) exFs [(2,0);(2,1);(2,3);(2,4)]%nat [] in
  done = [(2,3);(2,0)]%nat /\ map (f_block s) [0;1;2;3;4]%nat = [Some 0; Some 1; Some 0; Some 0; None]%nat /\
  f_bw s 0%nat = 3 /\ f_total s = 4 /\
  map (f_block (uncontract_all s done)) [0;1;2;3;4]%nat = [Some 0; Some 1; None; None; None]%nat.
Proof.
  split; [|split; [vm_compute; reflexivity|split; [|vm_compute; repeat split; reflexivity]]].
  - constructor; try reflexivity.
    + intros b. destruct b as [|[|b]]; reflexivity.
    + intros v _. unfold exFs, exFw; simpl. destruct v as [|[|[|[|[|v]]]]]; lia.
    + intros v Hv. simpl in Hv. destruct Hv as [<-|[<-|[<-|[<-|[<-|[]]]]]]; reflexivity.
  - intros b. destruct b as [|[|b]]; vm_compute; discriminate.
Qed.

(** *** Attaching fixed vertices *)
(** FixedVertexSupport as far as a user can observe it: fixedVertexBlock, fixedVertexBlockWeight, totalFixedVertexWeight. *)
Record fsup := mkFS { s_k : nat; s_block : nat -> option nat; s_bw : nat -> Z; s_total : Z }.
(** FixedVertexSupport(num_nodes, k), fixed_vertex_support.h:64-72 *)
Definition fsup_new (k : nat) : fsup := mkFS k (fun _ => None) (fun _ => 0) 0.
(** fixToBlock, fixed_vertex_support.h:108-131; the compare-and-exchange decides, the two fetch_adds commute with
    everything else, therefore one step. *)
Definition fsup_fix (w : nat -> Z) (s : fsup) (hn b : nat) : fsup :=
  match s_block s hn with
  | None => mkFS (s_k s) (upd (s_block s) hn (Some b)) (upd (s_bw s) b (s_bw s b + w hn)) (s_total s + w hn)
  | Some _ => s
  end.
(** One iteration of the loop in io::addFixedVertices, hypergraph_factory.cpp:236-245; None = exception. *)
Definition add_one (w : nat -> Z) (k : nat) (fixed : nat -> Z) (s : fsup) (hn : nat) : option fsup :=
  if fixed hn =? -1 then Some s
  else if (fixed hn <? 0) || (Z.of_nat k <=? fixed hn) then None
  else Some (fsup_fix w s hn (Z.to_nat (fixed hn))).
(** mt_kahypar_add_fixed_vertices (lib/mtkahypar.cpp:466-477): [order] is the order in which the parallel loop processes the
    nodes; the new support replaces the old one only if no exception was thrown. *)
Definition add_fixed_vertices (w : nat -> Z) (order : list nat) (fixed : nat -> Z) (k : nat) (old : fsup) : fsup * bool :=
  match fold_opt (add_one w k fixed) (fsup_new k) order with
  | Some s => (s, true)
  | None => (old, false)
  end.

(** The specification: entry -1 = free, otherwise a block id. *)
Definition entry_ok (k : nat) (x : Z) : Prop := x = -1 \/ (0 <= x < Z.of_nat k).
Definition entry (x : Z) : option nat := if x =? -1 then None else Some (Z.to_nat x).
Definition entry_weight (w : nat -> Z) (fixed : nat -> Z) (b : nat) (v : nat) : Z := if fixed v =? Z.of_nat b then w v else 0.

Lemma add_fold w k fixed order : forall s, NoDup order -> (forall v, In v order -> s_block s v = None) ->
  ((forall v, In v order -> entry_ok k (fixed v)) ->
    exists s', fold_opt (add_one w k fixed) s order = Some s' /\
      (forall v, s_block s' v = if mem v order then entry (fixed v) else s_block s v) /\
      (forall b, s_bw s' b = s_bw s b + sumZ (entry_weight w fixed b) order) /\
      s_total s' = s_total s + sumZ (fun v => if fixed v =? -1 then 0 else w v) order) /\
  (~ (forall v, In v order -> entry_ok k (fixed v)) -> fold_opt (add_one w k fixed) s order = None).
Proof.
  induction order as [|a order IH]; intros s Nd Hf.
  - split; [|intros X; exfalso; apply X; intros v []]. intros _. exists s. simpl. repeat split; intros; try reflexivity; lia.
  - apply NoDup_cons_iff in Nd. destruct Nd as [Na Nd]. cbn [fold_opt]. unfold add_one at 1 3.
    destruct (Z.eqb_spec (fixed a) (-1)) as [Ea|Ea].
    + destruct (IH s Nd) as [I1 I2]; [intros v Hv; apply Hf; right; exact Hv|]. split.
      * intros Hok. destruct I1 as (s' & E & B1 & B2 & B3); [intros v Hv; apply Hok; right; exact Hv|]. exists s'.
        split; [exact E|]. split; [|split].
        -- intros v. rewrite B1. cbn [mem existsb]. fold (mem v order). destruct (Nat.eqb_spec v a) as [->|]; cbn [orb]; [|reflexivity].
           assert (mem a order = false) as -> by (apply mem_false; exact Na). unfold entry. rewrite Ea. simpl. apply Hf. left. reflexivity.
        -- intros b. rewrite B2. cbn [sumZ]. unfold entry_weight at 2. replace (fixed a =? Z.of_nat b) with false by lia. lia.
        -- rewrite B3. cbn [sumZ]. rewrite Ea. simpl. lia.
      * intros Hno. apply I2. intros X. apply Hno. intros v [<-|Hv]; [left; exact Ea|apply X; exact Hv].
    + destruct ((fixed a <? 0) || (Z.of_nat k <=? fixed a)) eqn:Er.
      * split; [|reflexivity]. intros Hok. exfalso. destruct (Hok a (or_introl eq_refl)) as [X|X]; [contradiction|]. lia.
      * assert (Hb : 0 <= fixed a < Z.of_nat k) by lia.
        set (s1 := fsup_fix w s a (Z.to_nat (fixed a))).
        assert (E1 : s1 = mkFS (s_k s) (upd (s_block s) a (Some (Z.to_nat (fixed a)))) (upd (s_bw s) (Z.to_nat (fixed a)) (s_bw s (Z.to_nat (fixed a)) + w a)) (s_total s + w a)).
        { unfold s1, fsup_fix. rewrite Hf by (left; reflexivity). reflexivity. }
        destruct (IH s1 Nd) as [I1 I2].
        { intros v Hv. rewrite E1. cbn [s_block]. rewrite upd_other; [apply Hf; right; exact Hv|]. intros ->. contradiction. }
        split.
        -- intros Hok. destruct I1 as (s' & E & B1 & B2 & B3); [intros v Hv; apply Hok; right; exact Hv|]. exists s'.
           split; [exact E|]. rewrite E1 in B1, B2, B3. cbn [s_block s_bw s_total] in *. split; [|split].
           ++ intros v. rewrite B1. cbn [mem existsb]. fold (mem v order). unfold upd. destruct (Nat.eqb_spec v a) as [->|]; cbn [orb]; [|reflexivity].
              assert (mem a order = false) as -> by (apply mem_false; exact Na). unfold entry. replace (fixed a =? -1) with false by lia. reflexivity.
           ++ intros b. rewrite B2. cbn [sumZ]. unfold entry_weight at 2. unfold upd.
              destruct (Nat.eqb_spec b (Z.to_nat (fixed a))) as [->|Hne].
              ** replace (fixed a =? Z.of_nat (Z.to_nat (fixed a))) with true by lia. lia.
              ** replace (fixed a =? Z.of_nat b) with false by lia. lia.
           ++ rewrite B3. cbn [sumZ]. replace (fixed a =? -1) with false by lia. lia.
        -- intros Hno. apply I2. intros X. apply Hno. intros v [<-|Hv]; [right; exact Hb|apply X; exact Hv].
Qed.

(** C23: the call succeeds iff every entry is -1 or a valid block id; then exactly the nodes with a block id are fixed, to
    that block, and the reported fixed weights are the sums over them; otherwise an error is reported and nothing changes.
    Holds for every processing order. *)
Theorem C23_add_fixed_vertices H order fixed k old s ok :
  NoDup (nodes H) -> Permutation order (nodes H) -> add_fixed_vertices (nw H) order fixed k old = (s, ok) ->
  (ok = true <-> forall v, In v (nodes H) -> entry_ok k (fixed v)) /\
  (ok = false -> s = old) /\
  (ok = true ->
     (forall v, In v (nodes H) -> s_block s v = entry (fixed v)) /\
     (forall v b, In v (nodes H) -> s_block s v = Some b -> (b < k)%nat /\ fixed v = Z.of_nat b) /\
     (forall b, s_bw s b = block_weight H (s_block s) b) /\
     s_total s = sumZ (nw H) (filter (fun v => negb (fixed v =? -1)) (nodes H))).
Proof.
  intros ND P E. unfold add_fixed_vertices in E.
  assert (No : NoDup order) by (eapply Permutation_NoDup; [apply Permutation_sym; exact P|exact ND]).
  assert (Hin : forall v, In v order <-> In v (nodes H)).
  { intros v. split; apply Permutation_in; [exact P|apply Permutation_sym; exact P]. }
  destruct (add_fold (nw H) k fixed order (fsup_new k) No) as [A1 A2]; [reflexivity|].
  assert (D : (forall v, In v order -> entry_ok k (fixed v)) \/ ~ (forall v, In v order -> entry_ok k (fixed v))).
  { assert (D1 : forall x, {entry_ok k x} + {~ entry_ok k x}).
    { intros x. unfold entry_ok. destruct (Z.eq_dec x (-1)); [left; left; assumption|].
      destruct (Z_le_dec 0 x), (Z_lt_dec x (Z.of_nat k)); try (right; lia). left. lia. }
    destruct (Forall_dec (fun v => entry_ok k (fixed v)) (fun v => D1 (fixed v)) order) as [X|X].
    - left. apply Forall_forall. exact X.
    - right. intros Y. apply X. apply Forall_forall. exact Y. }
  destruct D as [D|D].
  - destruct (A1 D) as (s' & E' & B1 & B2 & B3). rewrite E' in E. injection E as <- <-.
    assert (Hblk : forall v, In v (nodes H) -> s_block s' v = entry (fixed v)).
    { intros v Hv. rewrite B1. replace (mem v order) with true; [reflexivity|]. symmetry. apply mem_In, Hin, Hv. }
    split; [|split; [discriminate|]].
    + split; [|reflexivity]. intros _ v Hv. apply D, Hin, Hv.
    + intros _. split; [exact Hblk|split; [|split]].
      * intros v b Hv Hb. rewrite Hblk in Hb by exact Hv. pose proof (D v (proj2 (Hin v) Hv)) as [X|X]; unfold entry in Hb;
          destruct (Z.eqb_spec (fixed v) (-1)); try discriminate; try contradiction. injection Hb as <-. lia.
      * intros b. rewrite B2. cbn [fsup_new s_bw]. unfold block_weight. rewrite sumZ_filter, Z.add_0_l, (sumZ_perm _ _ _ P).
        apply sumZ_ext. intros v Hv. unfold entry_weight, in_block. rewrite Hblk by exact Hv.
        pose proof (D v (proj2 (Hin v) Hv)) as [X|X]; unfold entry; destruct (Z.eqb_spec (fixed v) (-1)) as [Y|Y]; try lia.
        -- replace (fixed v =? Z.of_nat b) with false by lia. reflexivity.
        -- destruct (Nat.eqb_spec (Z.to_nat (fixed v)) b) as [Z0|Z0].
           ++ replace (fixed v =? Z.of_nat b) with true by lia. reflexivity.
           ++ replace (fixed v =? Z.of_nat b) with false by lia. reflexivity.
      * rewrite B3. cbn [fsup_new s_total]. rewrite sumZ_filter, Z.add_0_l, (sumZ_perm _ _ _ P). apply sumZ_ext.
        intros v _. destruct (fixed v =? -1); reflexivity.
  - rewrite (A2 D) in E. injection E as <- <-. split; [|split; [reflexivity|discriminate]].
    split; [discriminate|]. intros X. exfalso. apply D. intros v Hv. apply X, Hin, Hv.
Qed.
Example ex_C23 :
  let '(s, ok) := add_fixed_vertices (nw exH) [3;0;2;1]%nat (fun v => nth v [1;-1;0;1] (-1)) 2 (fsup_new 2) in
  ok = true /\ map (s_block s) [0;1;2;3]%nat = [Some 1; None; Some 0; Some 1]%nat /\ s_bw s 1%nat = 4 /\ s_total s = 5 /\
  snd (add_fixed_vertices (nw exH) [3;0;2;1]%nat (fun v => nth v [1;-1;2;1] (-1)) 2 (fsup_new 2)) = false.
Proof. vm_compute. repeat split; reflexivity. Qed.

(** Projection onto the coarse hypergraph, static_hypergraph.cpp:484-496: fixToBlock of the coarse node of every fixed node,
    in any order; the weight read is that of the coarse node. *)
Definition project_fixed (H' : hypergraph) (f : nat -> nat) (F : nat -> option nat) (k : nat) (order : list nat) : fsup :=
  fold_left (fun s v => match F v with Some b => fsup_fix (nw H') s (f v) b | None => s end) order (fsup_new k).

Lemma project_fold w (f : nat -> nat) (F : nat -> option nat) order :
  (forall u v b c, In u order -> In v order -> F u = Some b -> F v = Some c -> f u = f v -> b = c) ->
  forall k (Vc : list nat), NoDup Vc -> (forall v, In v order -> In (f v) Vc) ->
  let s := fold_left (fun s v => match F v with Some b => fsup_fix w s (f v) b | None => s end) order (fsup_new k) in
  (forall v b, In v order -> F v = Some b -> s_block s (f v) = Some b) /\
  (forall c b, s_block s c = Some b -> exists v, In v order /\ f v = c /\ F v = Some b) /\
  (forall b, s_bw s b = sumZ (fun c => match s_block s c with Some b' => if Nat.eqb b' b then w c else 0 | None => 0 end) Vc) /\
  s_total s = sumZ (fun c => match s_block s c with Some _ => w c | None => 0 end) Vc.
Proof.
  intros Hc k Vc ND. revert Hc.
  induction order as [|a order IH] using rev_ind; intros Hc Hin.
  - cbn. split; [intros v b []|]. split; [intros c b X; discriminate|]. split; [intros b|]; symmetry; apply sumZ_zero; reflexivity.
  - rewrite fold_left_app. cbn [fold_left].
    set (s := fold_left _ order (fsup_new k)) in *. cbv zeta in IH.
    destruct IH as (I1 & I2 & I3 & I4).
    { intros u v b c Hu Hv. apply Hc; apply in_or_app; left; assumption. }
    { intros v Hv. apply Hin. apply in_or_app. left. exact Hv. }
    cbv zeta. destruct (F a) as [b|] eqn:Fa.
    + unfold fsup_fix. destruct (s_block s (f a)) as [b'|] eqn:Ea.
      * destruct (I2 (f a) b' Ea) as (v & Hv & Ev & Fv).
        assert (b' = b). { apply (Hc v a b' b); try assumption; apply in_or_app; [left; exact Hv|right; left; reflexivity]. } subst b'.
        split; [|split; [|split; assumption]].
        -- intros x c Hx Fx. apply in_app_or in Hx. destruct Hx as [Hx|[<-|[]]]; [apply I1; assumption|]. congruence.
        -- intros c d Hd. destruct (I2 c d Hd) as (x & Hx & Y). exists x. split; [apply in_or_app; left; exact Hx|exact Y].
      * assert (Hfa : In (f a) Vc) by (apply Hin; apply in_or_app; right; left; reflexivity).
        split; [|split; [|split]]; cbn [s_block s_bw s_total].
        -- intros x c Hx Fx. unfold upd. destruct (Nat.eqb_spec (f x) (f a)) as [E|E].
           ++ f_equal. apply (Hc a x b c); try assumption; try (symmetry; exact E). apply in_or_app; right; left; reflexivity.
           ++ apply in_app_or in Hx. destruct Hx as [Hx|[<-|[]]]; [apply I1; assumption|congruence].
        -- intros c d Hd. unfold upd in Hd. destruct (Nat.eqb_spec c (f a)) as [E|E].
           ++ injection Hd as <-. exists a. split; [apply in_or_app; right; left; reflexivity|split; [symmetry; exact E|exact Fa]].
           ++ destruct (I2 c d Hd) as (x & Hx & Y). exists x. split; [apply in_or_app; left; exact Hx|exact Y].
        -- intros b0. unfold upd at 1.
           rewrite (sumZ_change1 _ (fun c => match s_block s c with Some b' => if Nat.eqb b' b0 then w c else 0 | None => 0 end) Vc (f a) ND).
           ++ fold (mem (f a) Vc). replace (mem (f a) Vc) with true by (symmetry; apply mem_In; exact Hfa).
              rewrite upd_same, Ea. rewrite (Nat.eqb_sym b0 b). destruct (Nat.eqb_spec b b0) as [->|]; rewrite <- I3; lia.
           ++ intros x _ Hx. rewrite upd_other by exact Hx. reflexivity.
        -- rewrite (sumZ_change1 _ (fun c => match s_block s c with Some b' => w c | None => 0 end) Vc (f a) ND).
           ++ fold (mem (f a) Vc). replace (mem (f a) Vc) with true by (symmetry; apply mem_In; exact Hfa).
              rewrite upd_same, Ea, <- I4. lia.
           ++ intros x _ Hx. rewrite upd_other by exact Hx. reflexivity.
    + split; [|split; [|split; assumption]].
      * intros x c Hx Fx. apply in_app_or in Hx. destruct Hx as [Hx|[<-|[]]]; [apply I1; assumption|congruence].
      * intros c d Hd. destruct (I2 c d Hd) as (x & Hx & Y). exists x. split; [apply in_or_app; left; exact Hx|exact Y].
Qed.

(** C21 (static coarsening): if the clustering merges no vertices fixed to different blocks, then the coarse vertex of a
    vertex fixed to b is fixed to b, only such coarse vertices are fixed, and the weights are those of the coarse vertices. *)
Theorem C21_projection_static H H' f F k order :
  NoDup (nodes H') -> Permutation order (nodes H) -> (forall v, In v (nodes H) -> In (f v) (nodes H')) ->
  (forall u v b c, In u (nodes H) -> In v (nodes H) -> F u = Some b -> F v = Some c -> f u = f v -> b = c) ->
  let s := project_fixed H' f F k order in
  (forall v b, In v (nodes H) -> F v = Some b -> s_block s (f v) = Some b) /\
  (forall c b, s_block s c = Some b -> exists v, In v (nodes H) /\ f v = c /\ F v = Some b) /\
  (forall b, s_bw s b = block_weight H' (s_block s) b).
Proof.
  intros ND P Hf Hc. cbv zeta.
  assert (Hin : forall v, In v order <-> In v (nodes H)).
  { intros v. split; apply Permutation_in; [exact P|apply Permutation_sym; exact P]. }
  destruct (project_fold (nw H') f F order) with (k := k) (Vc := nodes H') as (I1 & I2 & I3 & _).
  - intros u v b c Hu Hv. apply Hc; apply Hin; assumption.
  - exact ND.
  - intros v Hv. apply Hf, Hin, Hv.
  - fold (project_fixed H' f F k order) in I1, I2, I3. split; [|split].
    + intros v b Hv. apply I1, Hin, Hv.
    + intros c b X. destruct (I2 c b X) as (v & Hv & Y). exists v. split; [apply Hin, Hv|exact Y].
    + intros b. rewrite I3. unfold block_weight. rewrite sumZ_filter. apply sumZ_ext. intros c _. unfold in_block.
      destruct (s_block (project_fixed H' f F k order) c); reflexivity.
Qed.

(** *** forceFixedVertexAssignment, partitioner.cpp:285-309 *)
(** Calls issued by the parallel loop: one changeNodePart without weight limit per fixed vertex that is not in its block;
    nothing at all unless hasFixedVertices(). *)
Definition fixed_total (H : hypergraph) (F : nat -> option nat) : Z :=
  sumZ (nw H) (filter (fun v => match F v with Some _ => true | None => false end) (nodes H)).
Definition force_call (F : nat -> option nat) (P : partition) (v : nat) : list mv :=
  match F v, P v with
  | Some b, Some a => if Nat.eqb a b then [] else [mkMv v a b MAXW]
  | _, _ => []
  end.
Definition force_calls (H : hypergraph) (F : nat -> option nat) (P : partition) : list mv :=
  if 0 <? fixed_total H F then flat_map (force_call F P) (nodes H) else [].

Lemma force_call_u F P v m : In m (force_call F P v) -> m_u m = v /\ F v = Some (m_to m) /\ m_max m = MAXW.
Proof.
  unfold force_call. destruct (F v) as [b|]; [|intros []]. destruct (P v) as [a|]; [|intros []].
  destruct (Nat.eqb a b); [intros []|]. intros [<-|[]]. auto.
Qed.
Lemma force_nodup F P l : NoDup l -> NoDup (map m_u (flat_map (force_call F P) l)).
Proof.
  induction l as [|a l IH]; intros N; [constructor|]. apply NoDup_cons_iff in N. destruct N as [Na N]. cbn [flat_map].
  rewrite map_app. assert (Hl : forall x, In x (map m_u (flat_map (force_call F P) l)) -> In x l).
  { intros x Hx. apply in_map_iff in Hx. destruct Hx as (m & <- & Hm). apply in_flat_map in Hm. destruct Hm as (v & Hv & Hm).
    destruct (force_call_u F P v m Hm) as [-> _]. exact Hv. }
  unfold force_call at 1. destruct (F a) as [b|]; [|apply IH, N]. destruct (P a) as [c|]; [|apply IH, N].
  destruct (Nat.eqb c b); [apply IH, N|]. cbn [map app m_u]. constructor; [|apply IH, N]. intros X. apply Na, Hl, X.
Qed.

(** C22: when the concurrent calls have returned, every fixed vertex is in its block, all other nodes are where they
    were, and block weights, pin counts and connectivity are those of the new partition. *)
Theorem C22_fixed_vertices_enforced H F s n cache_updates c l st :
  started H s -> (forall v, In v (nodes H) -> 0 <= nw H v) -> total_weight H <= MAXW ->
  (forall v b, In v (nodes H) -> F v = Some b -> (b < pk s)%nat) -> 0 < fixed_total H F ->
  crun H n cache_updates (cinit s c) l = Some st -> quiescent n st -> Permutation (begins l) (force_calls H F (part s)) ->
  (forall v b, In v (nodes H) -> F v = Some b -> part (sh st) v = Some b) /\
  (forall v, In v (nodes H) -> F v = None -> part (sh st) v = part s v) /\
  complete H (part (sh st)) (pk s) /\ consistent H (sh st) /\ pk (sh st) = pk s.
Proof.
  intros ST NWP HT HF Hpos E Q Pm. pose proof ST as (WF & C & HC).
  unfold force_calls in Pm. replace (0 <? fixed_total H F) with true in Pm by lia.
  assert (U : Forall (unlimited H) l).
  { apply Forall_forall. intros a Ha. destruct a as [i m|i]; [|exact I]. cbn [unlimited].
    assert (X : In m (flat_map (force_call F (part s)) (nodes H))).
    { eapply Permutation_in; [exact Pm|]. apply in_flat_map. exists (Begin i m). split; [exact Ha|left; reflexivity]. }
    apply in_flat_map in X. destruct X as (v & _ & X). destruct (force_call_u _ _ _ _ X) as (_ & _ & ->). exact HT. }
  pose proof (unlimited_accepted H n cache_updates s c l st ST NWP U E) as AC.
  pose proof (Permutation_trans (Permutation_sym Pm) (quiescent_returned H n cache_updates s c l st E Q)) as PR.
  assert (ND : NoDup (map m_u (map fst (rep st)))).
  { eapply Permutation_NoDup; [apply Permutation_map; exact PR|apply force_nodup, (wf_nodes H WF)]. }
  destruct (replay_distinct (part s) (rep st) AC ND) as [R1 R2].
  destruct (conc_quiescent H n cache_updates WF s c l st C HC E Q) as (K & C' & _ & R).
  assert (NM : forall v, (forall b, F v = Some b -> part s v = Some b) -> part (sh st) v = part s v).
  { intros v Hv. rewrite R. apply R2. intros X. apply (Permutation_in (l' := map m_u (flat_map (force_call F (part s)) (nodes H)))) in X;
      [|apply Permutation_map, Permutation_sym, PR]. apply in_map_iff in X. destruct X as (m & Eu & Hm). apply in_flat_map in Hm.
    destruct Hm as (x & Hx & Hm). destruct (force_call_u _ _ _ _ Hm) as (A1 & A2 & _). rewrite A1 in Eu. subst x.
    unfold force_call in Hm. rewrite A2, (Hv _ A2), Nat.eqb_refl in Hm. destruct Hm. }
  assert (Hfix : forall v b, In v (nodes H) -> F v = Some b -> part (sh st) v = Some b).
  { intros v b Hv Fv. destruct (HC v Hv) as (a & Pa & La). destruct (Nat.eq_dec a b) as [->|Hne].
    - rewrite NM; [exact Pa|]. intros b' Hb'. congruence.
    - rewrite R. assert (X : In (mkMv v a b MAXW) (map fst (rep st))).
      { eapply Permutation_in; [exact PR|]. apply in_flat_map. exists v. split; [exact Hv|]. unfold force_call. rewrite Fv, Pa.
        destruct (Nat.eqb_spec a b); [contradiction|]. left. reflexivity. }
      apply (R1 _ X). }
  assert (Hfree : forall v, In v (nodes H) -> F v = None -> part (sh st) v = part s v).
  { intros v Hv Fv. apply NM. intros b Hb. congruence. }
  split; [exact Hfix|split; [exact Hfree|split; [|split; [exact C'|exact K]]]].
  intros v Hv. destruct (F v) as [b|] eqn:Fv.
  - exists b. split; [apply Hfix; assumption|apply (HF v b Hv Fv)].
  - rewrite Hfree by assumption. apply HC, Hv.
Qed.
(** Finding: if all fixed vertices have weight zero, no call is issued and a wrongly assigned fixed vertex stays where it is. *)
Theorem C22_refuted_zero_weight : exists H F P v b,
  wf_hg H /\ complete H P 2 /\ In v (nodes H) /\ F v = Some b /\ P v <> Some b /\ force_calls H F P = [].
Proof.
  exists (mkHG [0;1]%nat [0]%nat (fun _ => [0;1]%nat) (fun _ => [0]%nat) (fun v => if Nat.eqb v 0 then 0 else 1) (fun _ => 1)),
    (fun v => if Nat.eqb v 0 then Some 1%nat else None), (fun _ => Some 0%nat), 0%nat, 1%nat.
  split; [apply wf_hgb_sound; vm_compute; reflexivity|]. split; [intros v Hv; exists 0%nat; split; [reflexivity|lia]|].
  split; [left; reflexivity|]. split; [reflexivity|]. split; [discriminate|vm_compute; reflexivity].
Qed.

(** A concrete execution: in [ex_state] nodes 0,1,2 are in block 0 and node 3 in block 1; node 0 is fixed to 1, node 3 to 0. *)
Definition exFix (v : nat) : option nat := match v with 0%nat => Some 1%nat | 3%nat => Some 0%nat | 1%nat => Some 0%nat | _ => None end.
Definition ex_force_labels : list label :=
  [Begin 0 (mkMv 3 1 0 MAXW); Begin 1 (mkMv 0 0 1 MAXW); Adv 0; Adv 1; Adv 1; Adv 0; Adv 1; Adv 1]%nat ++
  repeat (Adv 0%nat) 11 ++ repeat (Adv 1%nat) 9.
Example ex_C22 :
  0 < fixed_total exH exFix /\ Permutation (begins ex_force_labels) (force_calls exH exFix (part ex_state)) /\
  match crun exH 2 (fun _ _ => []) (cinit ex_state ex_cache) ex_force_labels with
  | Some st => (forall i, (i < 2)%nat -> th st i = Idle) /\ map (part (sh st)) [0;1;2;3]%nat = [Some 1; Some 0; Some 0; Some 0]%nat
  | None => False
  end.
Proof.
  split; [vm_compute; reflexivity|]. split; [vm_compute; apply perm_swap|].
  vm_compute. split; [|reflexivity]. intros i Hi. destruct i as [|[|i]]; [reflexivity|reflexivity|]. exfalso. lia.
Qed.
