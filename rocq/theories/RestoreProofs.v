(** RestoreProofs.v - the properties of removal before and restoration after partitioning (model: Restore.v, EdgeRemoval.v). *)
From Verif Require Import Base Spec SpecLemmas PHG PHGProofs Objective GainCache Conc ConcProofs ConcRun PropsA Sorting ContractProofs RollbackProofs Construct EdgeRemoval Restore.

(** ** Restoring one hyperedge in the partition *)
(** Exact bookkeeping of hyperedge [e]. *)
Definition exact_edge (B : hypergraph) (s : phg) (e : nat) : Prop :=
  forall b, (b < pk s)%nat -> pc s e b = pin_count B (part s) e b /\ cs s e b = (0 <? pc s e b).

Lemma threadCount_sum P b chunks : sumZ (threadCount P b) chunks = sumZ (fun v => if in_block P b v then 1 else 0) (concat chunks).
Proof. unfold threadCount. rewrite sumZ_concat. reflexivity. Qed.
Lemma pin_count_cnt B P e b l : Permutation l (pins B e) -> sumZ (fun v => if in_block P b v then 1 else 0) l = pin_count B P e b.
Proof.
  intros Pm. rewrite (sumZ_perm _ _ _ Pm), pin_count_sum. apply sumZ_ext. intros v _. destruct (in_block P b v); reflexivity.
Qed.

Lemma restoreLargeP_ok B s e chunks : Permutation (concat chunks) (pins B e) -> (forall v, In v (pins B e) -> exists b, part s v = Some b /\ (b < pk s)%nat) -> dormant s e ->
  exists s', restoreLargeEdgeP s e chunks = Some s' /\ pk s' = pk s /\ part s' = part s /\ wt s' = wt s /\ exact_edge B s' e /\
    (forall e' c, e' <> e -> pc s' e' c = pc s e' c /\ cs s' e' c = cs s e' c).
Proof.
  intros Pm As D. unfold restoreLargeEdgeP.
  assert (Q : forallb (assigned (part s) (pk s)) (concat chunks) = true).
  { apply forallb_forall. intros v Hv. destruct (As v (Permutation_in _ Pm Hv)) as (b & Eb & Lb). unfold assigned. rewrite Eb. apply Nat.ltb_lt, Lb. }
  rewrite Q. clear Q. set (cnt := fun b => sumZ (threadCount (part s) b) chunks).
  assert (G : forall l t, NoDup l ->
    let t' := fold_left (fun t b => let c := sumZ (threadCount (part s) b) chunks in if 0 <? c then addBlock (setPinCountInPart t e b c) e b else t) l t in
    pk t' = pk t /\ part t' = part t /\ wt t' = wt t /\
    (forall a b, pc t' a b = if Nat.eqb a e && mem b l && (0 <? cnt b) then cnt b else pc t a b) /\
    (forall a b, cs t' a b = if Nat.eqb a e && mem b l && (0 <? cnt b) then negb (cs t a b) else cs t a b)).
  { induction l as [|p l IH]; intros t ND; cbv zeta; cbn [fold_left].
    - repeat split; try reflexivity; intros a b; cbn; rewrite andb_false_r; reflexivity.
    - apply NoDup_cons_iff in ND. destruct ND as [Np ND]. fold (cnt p).
      set (t1 := if 0 <? cnt p then _ else _). destruct (IH t1 ND) as (E1 & E2 & E3 & E4 & E5). cbv zeta in E1, E2, E3, E4, E5.
      assert (Hpc : forall a b, pc t1 a b = if Nat.eqb a e && Nat.eqb b p && (0 <? cnt p) then cnt p else pc t a b).
      { intros a b. unfold t1. destruct (0 <? cnt p); cbn; [rewrite upd2_eq, andb_true_r|rewrite andb_false_r]; reflexivity. }
      assert (Hcs : forall a b, cs t1 a b = if Nat.eqb a e && Nat.eqb b p && (0 <? cnt p) then negb (cs t e p) else cs t a b).
      { intros a b. unfold t1. destruct (0 <? cnt p); cbn; [rewrite upd2_eq, andb_true_r|rewrite andb_false_r]; reflexivity. }
      rewrite E1, E2, E3. split; [unfold t1; destruct (0 <? cnt p); reflexivity|]. split; [unfold t1; destruct (0 <? cnt p); reflexivity|].
      split; [unfold t1; destruct (0 <? cnt p); reflexivity|]. clearbody t1.
      split; intros a b.
      + rewrite E4, Hpc. unfold mem. cbn [existsb]. destruct (Nat.eqb_spec a e) as [Qa|Qa]; cbn [andb]; [|reflexivity].
        destruct (Nat.eqb_spec b p) as [Qb|Qb]; cbn [orb andb]; [|reflexivity]. rewrite Qb, (proj2 (mem_false p l) Np : existsb (Nat.eqb p) l = false). reflexivity.
      + rewrite E5, Hcs. unfold mem. cbn [existsb]. destruct (Nat.eqb_spec a e) as [Qa|Qa]; cbn [andb]; [|reflexivity].
        destruct (Nat.eqb_spec b p) as [Qb|Qb]; cbn [orb andb]; [|reflexivity]. rewrite Qb, (proj2 (mem_false p l) Np : existsb (Nat.eqb p) l = false), Qa. reflexivity. }
  destruct (G (seq 0 (pk s)) s (seq_NoDup _ _)) as (E1 & E2 & E3 & E4 & E5). clear G. eexists. split; [reflexivity|]. cbv zeta in *.
  set (s' := fold_left _ _ _) in *. clearbody s'. split; [exact E1|]. split; [exact E2|]. split; [exact E3|]. split.
  - intros b Hb. rewrite E1 in Hb. rewrite E5, E4, E2, Nat.eqb_refl, (mem_seq b _ Hb). cbn [andb]. destruct (D b) as [D1 D2]. rewrite D1, D2.
    unfold cnt. rewrite threadCount_sum, (pin_count_cnt B _ e b _ Pm). pose proof (pin_count_nonneg B (part s) e b) as N.
    destruct (Z.ltb_spec 0 (pin_count B (part s) e b)) as [P|P]; cbn [negb]; split; try lia.
  - intros e' c Ne. rewrite E4, E5. replace (Nat.eqb e' e) with false by (symmetry; apply Nat.eqb_neq, Ne). auto.
Qed.
Lemma restoreSingleP_ok B s e v : pins B e = [v] -> (exists b, part s v = Some b /\ (b < pk s)%nat) -> dormant s e ->
  exists s', restoreSinglePinEdgeP B s e = Some s' /\ pk s' = pk s /\ part s' = part s /\ wt s' = wt s /\ exact_edge B s' e /\
    (forall e' c, e' <> e -> pc s' e' c = pc s e' c /\ cs s' e' c = cs s e' c).
Proof.
  intros Pv (b & Eb & Lb) D. unfold restoreSinglePinEdgeP. rewrite Pv, Eb. replace (b <? pk s)%nat with true by (symmetry; apply Nat.ltb_lt, Lb).
  eexists. split; [reflexivity|]. cbn. repeat (split; [reflexivity|]). split.
  - intros c Hc. cbn in Hc. cbn. rewrite !upd2_eq, Nat.eqb_refl. cbn [andb]. destruct (D c) as [D1 D2]. unfold pin_count. rewrite Pv. cbn [filter]. unfold in_block. rewrite Eb.
    destruct (Nat.eqb_spec c b) as [Q|Q].
    + rewrite Q in D2 |- *. rewrite Nat.eqb_refl, D2. cbn. auto.
    + rewrite D1, D2. destruct (Nat.eqb_spec b c) as [Q2|Q2]; [exfalso; apply Q; congruence|]. cbn. auto.
  - intros e' c Ne. rewrite !upd2_eq. replace (Nat.eqb e' e) with false by (symmetry; apply Nat.eqb_neq, Ne). auto.
Qed.

(** ** The combined state during postprocessing *)
Definition post_inv (B : hypergraph) (en nn : nat -> bool) (h : hstate) (s : phg) : Prop :=
  hinv B en nn h /\ consistent (view B h) s /\ complete (view B h) (part s) (pk s) /\
  (forall e, In e (edges B) -> en e = false -> dormant s e) /\ (forall v, In v (nodes B) -> nn v = false -> part s v = None).

Lemma consistent_view B en nn h s : hinv B en nn h ->
  (consistent (view B h) s <->
   (forall v b, part s v = Some b -> (b < pk s)%nat) /\
   (forall b, (b < pk s)%nat -> wt s b = sumZ (nw B) (filter (in_block (part s) b) (filter nn (nodes B)))) /\
   (forall e, In e (edges B) -> en e = true -> exact_edge B s e)).
Proof.
  intros (_ & I2 & I3 & _).
  assert (NV : nodes (view B h) = filter nn (nodes B)) by (apply filter_ext; exact I3).
  assert (EV : edges (view B h) = filter en (edges B)) by (apply filter_ext; exact I2).
  split.
  - intros C. split; [apply (c_part _ _ C)|]. split; [intros b Hb; rewrite (c_wt _ _ C b Hb); unfold block_weight; rewrite NV; reflexivity|].
    intros e He Hen b Hb. assert (Hv : In e (edges (view B h))) by (rewrite EV; apply filter_In; auto).
    split; [rewrite (c_pc _ _ C e b Hv Hb); reflexivity|apply (c_cs _ _ C e b Hv Hb)].
  - intros (A1 & A2 & A3). constructor.
    + exact A1.
    + intros b Hb. unfold block_weight. rewrite NV. apply A2, Hb.
    + intros e b He Hb. rewrite EV in He. apply filter_In in He. apply (A3 e (proj1 He) (proj2 He) b Hb).
    + intros e b He Hb. rewrite EV in He. apply filter_In in He. apply (A3 e (proj1 He) (proj2 He) b Hb).
Qed.
Lemma pins_assigned B en nn h s e : wf_hg B -> hinv B en nn h -> complete (view B h) (part s) (pk s) -> In e (edges B) ->
  forall v, In v (pins B e) -> exists b, part s v = Some b /\ (b < pk s)%nat.
Proof.
  intros WF (I1 & I2 & I3 & I4) HC He v Hv. apply HC. cbn [view nodes]. pose proof (wf_pins_nodes B WF e v He Hv) as Hn. apply filter_In. split; [exact Hn|].
  rewrite I3. destruct (nn v) eqn:N; [reflexivity|]. assert (Q : In e (inc B v)) by (apply (wf_inc B WF v e Hn); auto). rewrite (I4 v Hn N) in Q. destruct Q.
Qed.

Lemma post_edge B en nn h s e h' s' : wf_hg B -> post_inv B en nn h s -> In e (edges B) -> hinv B (upd en e true) nn h' ->
  pk s' = pk s -> part s' = part s -> wt s' = wt s -> exact_edge B s' e -> (forall e' c, e' <> e -> pc s' e' c = pc s e' c /\ cs s' e' c = cs s e' c) ->
  post_inv B (upd en e true) nn h' s'.
Proof.
  intros WF (I & C & HC & D & Z) He I' K P W X F. apply (proj1 (consistent_view B en nn h s I)) in C. destruct C as (C1 & C2 & C3).
  split; [exact I'|]. split; [|split; [|split]].
  - apply (proj2 (consistent_view B _ nn h' s' I')). rewrite K, P, W. split; [exact C1|]. split; [exact C2|].
    intros e' He' Hen'. destruct (Nat.eq_dec e' e) as [Q|Q]; [rewrite Q; exact X|]. rewrite (upd_other _ _ _ _ Q) in Hen'. intros b Hb. rewrite K in Hb.
    destruct (F e' b Q) as [F1 F2]. rewrite F1, F2, P. apply (C3 e' He' Hen' b Hb).
  - rewrite K, P. intros v Hv. apply HC. destruct I as (_ & _ & I3 & _). destruct I' as (_ & _ & I3' & _). cbn [view nodes] in Hv |- *. apply filter_In in Hv. apply filter_In. rewrite I3. rewrite I3' in Hv. exact Hv.
  - intros e' He' Hen'. destruct (Nat.eq_dec e' e) as [Q|Q]; [rewrite Q, upd_same in Hen'; discriminate|]. rewrite (upd_other _ _ _ _ Q) in Hen'.
    apply (dormant_eq s); [intros c; apply F, Q|apply D; assumption].
  - rewrite P. exact Z.
Qed.
Lemma restore_large_ok B ord2 chunks en nn h s e : wf_hg B -> post_inv B en nn h s -> In e (edges B) -> en e = false ->
  Permutation (ord2 e) (pins B e) -> Permutation (concat (chunks e)) (pins B e) ->
  exists h' s', restore_large B ord2 chunks (h, s) e = Some (h', s') /\ post_inv B (upd en e true) nn h' s' /\ part s' = part s /\ wt s' = wt s /\ pk s' = pk s /\ hs_rn h' = hs_rn h.
Proof.
  intros WF I He Hen P1 P2. pose proof I as (I0 & C & HC & D & Z). destruct (hinv_restoreEdge B WF en nn h e (ord2 e) I0 He Hen P1) as (h' & E & I').
  destruct (restoreLargeP_ok B s e (chunks e) P2 (pins_assigned B en nn h s e WF I0 HC He) (D e He Hen)) as (s' & E' & K & P & W & X & F).
  exists h', s'. unfold restore_large. cbn [fst snd]. rewrite E, E'. split; [reflexivity|]. split; [apply (post_edge B en nn h s e h' s'); assumption|].
  split; [exact P|]. split; [exact W|]. split; [exact K|].
  clear -E. unfold restoreEdge in E. destruct (hs_eon h e); [discriminate|].
  assert (G : forall l t t', fold_opt (insert_inc B e) t l = Some t' -> hs_rn t' = hs_rn t).
  { induction l as [|u l IH]; intros t t' Q; cbn [fold_opt] in Q; [injection Q as <-; reflexivity|]. unfold insert_inc at 1 in Q. destruct (hs_non t u); [|discriminate].
    destruct (find_pos _ _ _ _); [|discriminate]. apply IH in Q. exact Q. }
  apply G in E. exact E.
Qed.
Lemma restore_single_ok B en nn h s e : wf_hg B -> post_inv B en nn h s -> In e (edges B) -> en e = false -> length (pins B e) = 1%nat ->
  exists h' s', restore_single B (h, s) e = Some (h', s') /\ post_inv B (upd en e true) nn h' s' /\ part s' = part s /\ wt s' = wt s /\ pk s' = pk s /\ hs_rn h' = hs_rn h.
Proof.
  intros WF I He Hen L1. pose proof I as (I0 & C & HC & D & Z). destruct (hinv_restoreEdge B WF en nn h e (pins B e) I0 He Hen (Permutation_refl _)) as (h' & E & I').
  destruct (pins B e) as [|v [|w r]] eqn:PV; try discriminate. rewrite <- PV in E.
  destruct (restoreSingleP_ok B s e v PV) as (s' & E' & K & P & W & X & F).
  { apply (pins_assigned B en nn h s e WF I0 HC He). rewrite PV. left. reflexivity. }
  { apply D; assumption. }
  exists h', s'. unfold restore_single. cbn [fst snd]. rewrite E, E'. split; [reflexivity|]. split; [apply (post_edge B en nn h s e h' s'); assumption|].
  split; [exact P|]. split; [exact W|]. split; [exact K|].
  clear -E. unfold restoreEdge in E. destruct (hs_eon h e); [discriminate|].
  assert (G : forall l t t', fold_opt (insert_inc B e) t l = Some t' -> hs_rn t' = hs_rn t).
  { induction l as [|u l IH]; intros t t' Q; cbn [fold_opt] in Q; [injection Q as <-; reflexivity|]. unfold insert_inc at 1 in Q. destruct (hs_non t u); [|discriminate].
    destruct (find_pos _ _ _ _); [|discriminate]. apply IH in Q. exact Q. }
  apply G in E. exact E.
Qed.

Definition turned_on (en : nat -> bool) (l : list nat) : nat -> bool := fun e => mem e l || en e.
Lemma hinv_ext B en en' nn nn' h : (forall e, en e = en' e) -> (forall v, nn v = nn' v) -> hinv B en nn h -> hinv B en' nn' h.
Proof.
  intros E N (I1 & I2 & I3 & I4). split; [|split; [|split]].
  - intros v Hv. destruct (I1 v Hv) as (R1 & R2 & R3 & R4). split; [exact R1|]. split; [exact R2|]. split; [exact R3|]. intros i Hi. rewrite <- E. apply R4, Hi.
  - intros e. rewrite <- E. apply I2.
  - intros v. rewrite <- N. apply I3.
  - intros v Hv. rewrite <- N. apply I4, Hv.
Qed.
Lemma post_ext B en en' nn nn' h s : (forall e, en e = en' e) -> (forall v, nn v = nn' v) -> post_inv B en nn h s -> post_inv B en' nn' h s.
Proof.
  intros E N (I & C & HC & D & Z). split; [apply (hinv_ext B en en' nn nn' h E N I)|]. split; [exact C|]. split; [exact HC|].
  split; [intros e He; rewrite <- E; apply D, He|intros v Hv; rewrite <- N; apply Z, Hv].
Qed.
Lemma restore_fold B (step : hstate * phg -> nat -> option (hstate * phg)) (ok : nat -> Prop) : 
  (forall en nn h s e, post_inv B en nn h s -> ok e -> In e (edges B) -> en e = false ->
     exists h' s', step (h, s) e = Some (h', s') /\ post_inv B (upd en e true) nn h' s' /\ part s' = part s /\ wt s' = wt s /\ pk s' = pk s /\ hs_rn h' = hs_rn h) ->
  forall l en nn h s, post_inv B en nn h s -> NoDup l -> (forall e, In e l -> ok e /\ In e (edges B) /\ en e = false) ->
  exists h' s', fold_opt step (h, s) l = Some (h', s') /\ post_inv B (turned_on en l) nn h' s' /\ part s' = part s /\ wt s' = wt s /\ pk s' = pk s /\ hs_rn h' = hs_rn h.
Proof.
  intros ST. induction l as [|e l IH]; intros en nn h s I ND Q; [exists h, s; cbn; repeat (split; [first [reflexivity|exact I]|]); reflexivity|].
  apply NoDup_cons_iff in ND. destruct ND as [Ne ND]. destruct (Q e (or_introl eq_refl)) as (Oe & He & Hen).
  destruct (ST en nn h s e I Oe He Hen) as (h1 & s1 & E1 & I1 & P1 & W1 & K1 & R1).
  destruct (IH (upd en e true) nn h1 s1 I1 ND) as (h2 & s2 & E2 & I2 & P2 & W2 & K2 & R2).
  - intros e' He'. destruct (Q e' (or_intror He')) as (A & C & D). split; [exact A|]. split; [exact C|]. rewrite upd_other; [exact D|]. intros ->. contradiction.
  - exists h2, s2. cbn [fold_opt]. rewrite E1, E2. split; [reflexivity|]. split; [|split; [congruence|split; [congruence|split; congruence]]].
    apply (post_ext B (turned_on (upd en e true) l) _ nn nn); [|reflexivity|exact I2]. intros x. unfold turned_on, upd, mem. cbn [existsb].
    destruct (Nat.eqb x e), (existsb (Nat.eqb x) l), (en x); reflexivity.
Qed.
Lemma restoreHyperedges_ok B ord2 chunks en nn h s lg sg : wf_hg B -> post_inv B en nn h s -> NoDup (lg ++ sg) ->
  (forall e, In e lg -> In e (edges B) /\ en e = false /\ Permutation (ord2 e) (pins B e) /\ Permutation (concat (chunks e)) (pins B e)) ->
  (forall e, In e sg -> In e (edges B) /\ en e = false /\ length (pins B e) = 1%nat) ->
  exists h' s', restoreHyperedges B ord2 chunks (h, s) lg sg = Some (h', s') /\ post_inv B (turned_on en (lg ++ sg)) nn h' s' /\
    part s' = part s /\ wt s' = wt s /\ pk s' = pk s /\ hs_rn h' = hs_rn h.
Proof.
  intros WF I ND QL QS. assert (ND2 := ND). apply NoDup_app_inv in ND2. destruct ND2 as (NL & NS & DJ).
  destruct (restore_fold B (restore_large B ord2 chunks) (fun e => Permutation (ord2 e) (pins B e) /\ Permutation (concat (chunks e)) (pins B e))
    ltac:(intros en0 nn0 h0 s0 e I0 [O1 O2] He Hen; apply restore_large_ok; assumption) lg en nn h s I NL) as (h1 & s1 & E1 & I1 & P1 & W1 & K1 & R1).
  { intros e He. destruct (QL e He) as (A & C & D1 & D2). auto. }
  destruct (restore_fold B (restore_single B) (fun e => length (pins B e) = 1%nat)
    ltac:(intros en0 nn0 h0 s0 e I0 O He Hen; apply restore_single_ok; assumption) sg _ nn h1 s1 I1 NS) as (h2 & s2 & E2 & I2 & P2 & W2 & K2 & R2).
  { intros e He. destruct (QS e He) as (A & C & D). split; [exact D|]. split; [exact A|]. unfold turned_on. rewrite C. replace (mem e lg) with false; [reflexivity|].
    symmetry. apply mem_false. intros Q. apply (DJ e Q He). }
  exists h2, s2. unfold restoreHyperedges. rewrite E1, E2. split; [reflexivity|]. split; [|split; [congruence|split; [congruence|split; congruence]]].
  apply (post_ext B (turned_on (turned_on en lg) sg) _ nn nn); [|reflexivity|exact I2]. intros x. unfold turned_on, mem. rewrite existsb_app.
  destruct (existsb _ lg), (existsb _ sg); reflexivity.
Qed.

(** ** Preprocessing *)
Definition turned_off (en : nat -> bool) (l : list nat) : nat -> bool := fun e => negb (mem e l) && en e.
Lemma mem_snoc x l a : mem x (l ++ [a]) = mem x l || Nat.eqb x a.
Proof. unfold mem. rewrite existsb_app. cbn. rewrite orb_false_r. reflexivity. Qed.

Lemma rdz_ok B fixed limit cur en nn0 : (forall v e, In v (nodes B) -> In e (inc B v) -> en e = true) -> forall l h removed,
  hinv B en (turned_off nn0 removed) h -> NoDup (removed ++ l) -> incl l (nodes B) ->
  exists h' Zs, rdz fixed limit cur h removed l = Some (h', removed ++ Zs) /\ hinv B en (turned_off nn0 (removed ++ Zs)) h' /\
    hs_eon h' = hs_eon h /\ NoDup (removed ++ Zs) /\ (forall v, In v Zs -> In v l /\ inc B v = [] /\ fixed v = false) /\
    (Zs = [] \/ (limit + length (removed ++ Zs) <= cur)%nat) /\ hs_rn h' = (hs_rn h + length Zs)%nat.
Proof.
  intros EN. induction l as [|u l IH]; intros h removed I ND IL.
  { exists h, []. cbn [rdz]. rewrite app_nil_r in *. repeat (split; [first [reflexivity|assumption]|]). split; [intros v []|]. split; [left; reflexivity|cbn; lia]. }
  cbn [rdz]. destruct (cur - length removed <=? limit)%nat eqn:LM.
  { exists h, []. rewrite !app_nil_r. apply NoDup_app_inv in ND. destruct ND as (N1 & _ & _). repeat (split; [first [reflexivity|assumption]|]).
    split; [intros v []|]. split; [left; reflexivity|cbn; lia]. }
  apply Nat.leb_gt in LM. assert (Hu : In u (nodes B)) by (apply IL; left; reflexivity).
  assert (IL' : incl l (nodes B)) by (intros x Hx; apply IL; right; exact Hx).
  assert (ND' : NoDup (removed ++ l)) by (apply NoDup_remove_1 in ND; exact ND).
  destruct ((hs_sz h u =? 0)%nat && negb (fixed u)) eqn:C.
  - apply andb_true_iff in C. destruct C as [C1 C2]. apply Nat.eqb_eq in C1. apply negb_true_iff in C2.
    assert (Z : inc B u = []).
    { destruct (inc B u) as [|e r] eqn:EI; [reflexivity|]. destruct I as (I1 & _). destruct (I1 u Hu) as (R1 & R2 & R3 & R4).
      assert (Hc : (0 < cap B u)%nat) by (unfold cap; rewrite EI; cbn; lia). assert (Q : (0 < hs_sz h u)%nat); [|lia].
      apply (R4 0%nat Hc), (EN u); [exact Hu|]. apply R3. exists 0%nat. auto. }
    destruct (hinv_node B en _ h u false I Hu Z) as [_ I']. unfold removeNode. rewrite C1. cbn [Nat.eqb].
    set (h1 := mkHS _ _ _ _ _ _). specialize (I' (S (hs_rn h)) (hs_re h)). fold h1 in I'.
    destruct (IH h1 (removed ++ [u])) as (h' & Zs & E & A1 & A2 & A3 & A4 & A5 & A6).
    + apply (hinv_ext B en en (upd (turned_off nn0 removed) u false)); [reflexivity| |exact I']. intros v. unfold turned_off, upd. rewrite mem_snoc.
      destruct (Nat.eqb v u), (mem v removed), (nn0 v); reflexivity.
    + rewrite <- app_assoc. cbn [app]. exact ND.
    + exact IL'.
    + rewrite <- !app_assoc in *. cbn [app] in *. exists h', (u :: Zs). split; [exact E|]. split; [exact A1|]. split; [exact A2|]. split; [exact A3|]. split; [|split].
      * intros v [<-|Hv]; [split; [left; reflexivity|auto]|]. destruct (A4 v Hv) as (Q1 & Q2). split; [right; exact Q1|exact Q2].
      * right. destruct A5 as [->|A5]; [|exact A5]. rewrite app_length. cbn [length]. lia.
      * rewrite A6. unfold h1. cbn. lia.
  - destruct (IH h removed I ND' IL') as (h' & Zs & E & A1 & A2 & A3 & A4 & A5 & A6). exists h', Zs. split; [exact E|]. split; [exact A1|]. split; [exact A2|]. split; [exact A3|].
    split; [|split; [exact A5|exact A6]]. intros v Hv. destruct (A4 v Hv) as (Q1 & Q2). split; [right; exact Q1|exact Q2].
Qed.

Lemma removeEdge_rn s e ord s' : removeEdge s e ord = Some s' -> hs_rn s' = hs_rn s.
Proof.
  unfold removeEdge. destruct (hs_eon s e); [|discriminate].
  assert (G : forall l t t', fold_opt (remove_inc e) t l = Some t' -> hs_rn t' = hs_rn t).
  { induction l as [|u l IH]; intros t t' Q; cbn [fold_opt] in Q; [injection Q as <-; reflexivity|]. unfold remove_inc at 1 in Q. destruct (hs_non t u); [|discriminate].
    destruct (find_pos _ _ _ _); [|discriminate]. apply IH in Q. exact Q. }
  destruct (fold_opt _ _ _) as [t|] eqn:E; [|discriminate]. apply G in E. intros Q. injection Q as <-. exact E.
Qed.
Lemma rle_ok B thr ord nn en0 : wf_hg B -> (forall e, In e (edges B) -> Permutation (ord e) (pins B e)) -> forall l h large single,
  hinv B (turned_off en0 (large ++ single)) nn h -> NoDup (l ++ large ++ single) -> (forall e, In e l -> In e (edges B) /\ en0 e = true) ->
  exists h' lg sg, rle B thr ord h large single l = Some (h', lg ++ large, single ++ sg) /\ hinv B (turned_off en0 ((lg ++ large) ++ single ++ sg)) nn h' /\
    NoDup (lg ++ sg) /\ (forall e, In e lg <-> In e l /\ (thr < length (pins B e))%nat /\ length (pins B e) <> 1%nat) /\
    (forall e, In e sg <-> In e l /\ length (pins B e) = 1%nat) /\ hs_rn h' = hs_rn h.
Proof.
  intros WF PO. induction l as [|e l IH]; intros h large single I ND IL.
  { exists h, [], []. cbn [rle app]. rewrite app_nil_r. split; [reflexivity|]. split; [exact I|]. split; [constructor|]. cbn. tauto. }
  destruct (IL e (or_introl eq_refl)) as [He Hen]. cbn [app] in ND. apply NoDup_cons_iff in ND. destruct ND as [Ne ND].
  assert (IL' : forall x, In x l -> In x (edges B) /\ en0 x = true) by (intros x Hx; apply IL; right; exact Hx).
  assert (Nel : ~ In e l) by (intros Q; apply Ne, in_or_app; left; exact Q).
  assert (Eon : turned_off en0 (large ++ single) e = true).
  { unfold turned_off. rewrite Hen. replace (mem e (large ++ single)) with false; [reflexivity|]. symmetry. apply mem_false. intros Q. apply Ne, in_or_app. right. exact Q. }
  cbn [rle]. destruct (Nat.eqb_spec (length (pins B e)) 1) as [L1|L1]; [|destruct (Nat.ltb_spec thr (length (pins B e))) as [L2|L2]].
  - destruct (hinv_removeEdge B WF _ nn h e (pins B e) I He Eon (Permutation_refl _)) as (h1 & E1 & I1). rewrite E1. pose proof (removeEdge_rn _ _ _ _ E1) as R1.
    destruct (IH h1 large (single ++ [e])) as (h' & lg & sg & E & A1 & A2 & A3 & A4 & A5).
    + apply (hinv_ext B (upd (turned_off en0 (large ++ single)) e false) _ nn nn); [|reflexivity|exact I1]. intros x. unfold turned_off, upd. rewrite app_assoc, mem_snoc.
      destruct (Nat.eqb x e), (mem x (large ++ single)), (en0 x); reflexivity.
    + replace (l ++ large ++ single ++ [e]) with ((l ++ large ++ single) ++ [e]) by (rewrite <- !app_assoc; reflexivity).
      apply (Permutation_NoDup (l := e :: l ++ large ++ single)); [apply Permutation_cons_append|]. apply NoDup_cons; assumption.
    + exact IL'.
    + rewrite <- app_assoc in E. replace ((single ++ [e]) ++ sg) with (single ++ e :: sg) in A1 by (rewrite <- app_assoc; reflexivity). cbn [app] in E. exists h', lg, (e :: sg). split; [exact E|]. split; [exact A1|]. split; [|split; [|split]].
      * apply (Permutation_NoDup (l := e :: lg ++ sg)); [apply Permutation_middle|]. apply NoDup_cons; [|exact A2]. rewrite in_app_iff, A3, A4. tauto.
      * intros x. rewrite A3. cbn [In]. split; [tauto|]. intros [[Q|Q] R]; [rewrite <- Q in R; lia|auto].
      * intros x. cbn [In]. rewrite A4. split; [intros [Q|Q]; [rewrite <- Q; auto|tauto]|tauto].
      * congruence.
  - destruct (hinv_removeEdge B WF _ nn h e (ord e) I He Eon (PO e He)) as (h1 & E1 & I1). rewrite E1. pose proof (removeEdge_rn _ _ _ _ E1) as R1.
    destruct (IH h1 (e :: large) single) as (h' & lg & sg & E & A1 & A2 & A3 & A4 & A5).
    + apply (hinv_ext B (upd (turned_off en0 (large ++ single)) e false) _ nn nn); [|reflexivity|exact I1]. intros x. unfold turned_off, upd, mem. cbn [app existsb].
      destruct (Nat.eqb x e), (existsb (Nat.eqb x) (large ++ single)), (en0 x); reflexivity.
    + apply (Permutation_NoDup (l := e :: l ++ large ++ single)); [apply Permutation_middle|]. apply NoDup_cons; assumption.
    + exact IL'.
    + exists h', (lg ++ [e]), sg. replace ((lg ++ [e]) ++ large) with (lg ++ e :: large) by (rewrite <- app_assoc; reflexivity). split; [exact E|]. split; [exact A1|]. split; [|split; [|split]].
      * rewrite <- app_assoc. cbn [app]. apply (Permutation_NoDup (l := e :: lg ++ sg)); [apply Permutation_middle|]. apply NoDup_cons; [|exact A2]. rewrite in_app_iff, A3, A4. tauto.
      * intros x. rewrite in_app_iff, A3. cbn [In]. split; [intros [Q|[Q|[]]]; [tauto|rewrite <- Q; auto]|]. intros [[Q|Q] R]; [auto|left; auto].
      * intros x. rewrite A4. cbn [In]. split; [tauto|]. intros [[Q|Q] R]; [rewrite <- Q in R; lia|auto].
      * congruence.
  - destruct (IH h large single I ND IL') as (h' & lg & sg & E & A1 & A2 & A3 & A4 & A5). exists h', lg, sg. split; [exact E|]. split; [exact A1|]. split; [exact A2|]. split; [|split; [|exact A5]].
    + intros x. rewrite A3. cbn [In]. split; [tauto|]. intros [[Q|Q] R]; [rewrite <- Q in R; lia|auto].
    + intros x. rewrite A4. cbn [In]. split; [tauto|]. intros [[Q|Q] R]; [rewrite <- Q in R; lia|auto].
Qed.

(** A hypergraph object on which nothing is removed; the removal counters may still count elements of earlier calls. *)
Definition intact (B : hypergraph) (h : hstate) : Prop := hinv B (fun _ => true) (fun _ => true) h /\ (hs_rn h <= length (nodes B))%nat.

Lemma filter_all_true {A} (p : A -> bool) l : (forall x, In x l -> p x = true) -> filter p l = l.
Proof. induction l as [|a l IH]; intros Q; [reflexivity|]. cbn. rewrite (Q a (or_introl eq_refl)), IH; [reflexivity|]. intros y Hy. apply Q. right. exact Hy. Qed.
Lemma sanitize_ok B fixed limit thr ord h : wf_hg B -> (forall e, In e (edges B) -> Permutation (ord e) (pins B e)) -> intact B h ->
  exists h1 Zs lg sg, sanitize B fixed limit thr ord h = Some (h1, Zs, lg, sg) /\
    hinv B (turned_off (fun _ => true) (lg ++ sg)) (turned_off (fun _ => true) Zs) h1 /\
    NoDup Zs /\ NoDup (lg ++ sg) /\ (forall v, In v Zs -> In v (nodes B) /\ inc B v = [] /\ fixed v = false) /\
    (Zs = [] \/ (limit + length Zs <= length (nodes B))%nat) /\
    (forall e, In e lg <-> In e (edges B) /\ (thr < length (pins B e))%nat /\ length (pins B e) <> 1%nat) /\
    (forall e, In e sg <-> In e (edges B) /\ length (pins B e) = 1%nat) /\ (hs_rn h1 <= length (nodes B))%nat.
Proof.
  intros WF PO [I Rn]. unfold sanitize, removeDegreeZero. pose proof I as (I1 & I2 & I3 & I4).
  assert (NV : nodes (view B h) = nodes B) by (cbn; apply filter_all_true; intros x _; apply I3). rewrite NV.
  destruct (rdz_ok B fixed limit (length (nodes B) - hs_rn h) (fun _ => true) (fun _ => true) ltac:(auto) (nodes B) h []) as (h1 & Zs & E & A1 & A2 & A3 & A4 & A5 & A6).
  { apply (hinv_ext B (fun _ => true) _ (fun _ => true)); [reflexivity|reflexivity|exact I]. }
  { apply WF. }
  { intros x Hx; exact Hx. }
  cbn [app] in *. rewrite E. unfold removeLarge.
  assert (EV : edges (view B h1) = edges B) by (cbn; apply filter_all_true; intros x _; rewrite A2; apply I2). rewrite EV.
  destruct (rle_ok B thr ord (turned_off (fun _ => true) Zs) (fun _ => true) WF PO (edges B) h1 [] []) as (h2 & lg & sg & E2 & C1 & C2 & C3 & C4 & C5).
  { apply (hinv_ext B (fun _ => true) _ (turned_off (fun _ => true) Zs)); [reflexivity|reflexivity|exact A1]. }
  { rewrite app_nil_r. apply WF. }
  { auto. }
  rewrite app_nil_r in *. cbn [app] in *. rewrite E2. exists h2, Zs, lg, sg. split; [reflexivity|]. split; [exact C1|]. split; [exact A3|]. split; [exact C2|].
  split; [exact A4|]. split; [destruct A5 as [A5|A5]; [left; exact A5|right; lia]|]. split; [exact C3|]. split; [exact C4|].
  destruct A5 as [A5|A5]; [rewrite A5 in A6; cbn in A6; lia|lia].
Qed.

(** ** Restoring isolated nodes *)
(** Specification: nodes are placed one after the other, each into a block with the largest remaining capacity L c - W c. *)
Inductive packed (k : nat) (w L : nat -> Z) : (nat -> Z) -> list (nat * nat) -> (nat -> Z) -> Prop :=
| pk_nil W : packed k w L W [] W
| pk_cons W v b r W' : (b < k)%nat -> (forall c, (c < k)%nat -> L c - W c <= L b - W b) -> packed k w L (upd W b (W b + w v)) r W' -> packed k w L W ((v, b) :: r) W'.

Lemma post_node B nn h s u b : wf_hg B -> post_inv B (fun _ => true) nn h s -> In u (nodes B) -> nn u = false -> (b < pk s)%nat ->
  exists h', restoreNode h u = Some h' /\ setNodePartR (view B h') s u b = Some (mkPHG (pk s) (move (part s) u b) (upd (wt s) b (wt s b + nw B u)) (pc s) (cs s)) /\
    post_inv B (fun _ => true) (upd nn u true) h' (mkPHG (pk s) (move (part s) u b) (upd (wt s) b (wt s b + nw B u)) (pc s) (cs s)) /\ hs_rn h' = hs_rn h.
Proof.
  intros WF (I & C & HC & D & Z) Hu Hnn Hb. pose proof I as (I1 & I2 & I3 & I4). pose proof (I4 u Hu Hnn) as Iu.
  destruct (hinv_node B _ nn h u true I Hu Iu) as [S0 I']. specialize (I' (hs_rn h) (hs_re h)). unfold restoreNode. rewrite S0. cbn [Nat.eqb].
  eexists. split; [reflexivity|]. set (h' := mkHS _ _ _ _ _ _) in *. split.
  { unfold setNodePartR. replace (b <? pk s)%nat with true by (symmetry; apply Nat.ltb_lt, Hb). cbn [view inc h' hs_sz hs_seg nw]. rewrite S0. reflexivity. }
  split; [|reflexivity]. set (s' := mkPHG _ _ _ _ _).
  assert (PC : forall e c, In e (edges B) -> pin_count B (move (part s) u b) e c = pin_count B (part s) e c).
  { intros e c He. apply pin_count_ext. intros v Hv. unfold move. rewrite upd_other; [reflexivity|]. intros ->.
    assert (Q : In e (inc B u)) by (apply (wf_inc B WF u e Hu); auto). rewrite Iu in Q. destruct Q. }
  split; [exact I'|]. split; [|split; [|split]].
  - apply (proj1 (consistent_view B _ nn h s I)) in C. destruct C as (C1 & C2 & C3).
    apply (proj2 (consistent_view B _ _ h' s' I')). split; [|split].
    + intros v c. unfold s'; cbn [part pk]. unfold move, upd. destruct (Nat.eqb_spec v u) as [Q|Q]; [intros [= <-]; exact Hb|apply C1].
    + intros c Hc. unfold s' in *; cbn [part pk wt] in *. rewrite !sumZ_filter.
      rewrite (sumZ_change1 _ (fun x => if nn x then if in_block (part s) c x then nw B x else 0 else 0) (nodes B) u (wf_nodes B WF)).
      * rewrite <- (sumZ_filter (fun x => if in_block (part s) c x then nw B x else 0)), <- (sumZ_filter (nw B)), <- (C2 c Hc). fold (mem u (nodes B)).
        rewrite (proj2 (mem_In u (nodes B)) Hu), upd_same, Hnn, in_block_move, Nat.eqb_refl. unfold upd. rewrite (Nat.eqb_sym b c). destruct (Nat.eqb_spec c b) as [Q|Q]; [rewrite Q; lia|lia].
      * intros x _ Nx. rewrite upd_other by exact Nx. rewrite in_block_move. replace (Nat.eqb x u) with false by (symmetry; apply Nat.eqb_neq, Nx). reflexivity.
    + intros e He _ c Hc. unfold s' in *; cbn [part pk pc cs] in *. rewrite PC by exact He. apply (C3 e He eq_refl c Hc).
  - intros v Hv. unfold s'; cbn [part pk]. unfold move, upd. destruct (Nat.eqb_spec v u) as [Q|Q]; [exists b; auto|]. apply HC. cbn [view nodes h' hs_non] in Hv |- *.
    apply filter_In in Hv. destruct Hv as [Hv1 Hv2]. apply filter_In. split; [exact Hv1|]. rewrite (upd_other _ _ _ _ Q) in Hv2. exact Hv2.
  - discriminate.
  - intros v Hv. unfold s'; cbn [part]. unfold move, upd. destruct (Nat.eqb_spec v u) as [Q|Q]; [discriminate|apply Z, Hv].
Qed.

Lemma bubble_perm d a r : Permutation (bubble d a r) (a :: r).
Proof. induction r as [|b r IH]; cbn [bubble]; [reflexivity|]. destruct (d b <? d a); [|reflexivity]. rewrite IH. apply perm_swap. Qed.
Lemma bubble_sorted d a r : StronglySorted (fun x y => d x <= d y) r -> StronglySorted (fun x y => d x <= d y) (bubble d a r).
Proof.
  induction r as [|b r IH]; intros S; cbn [bubble]; [constructor; constructor|]. pose proof S as S'. apply StronglySorted_inv in S. destruct S as [S F].
  destruct (Z.ltb_spec (d b) (d a)) as [Q|Q].
  - constructor; [apply IH, S|]. apply Forall_forall. intros x Hx. apply (Permutation_in _ (bubble_perm d a r)) in Hx. destruct Hx as [<-|Hx]; [lia|]. rewrite Forall_forall in F. apply F, Hx.
  - constructor; [exact S'|]. constructor; [exact Q|]. rewrite Forall_forall in F |- *. intros x Hx. specialize (F x Hx). lia.
Qed.
Lemma sorted_ext (R Q : nat -> nat -> Prop) l : (forall x y, In x l -> In y l -> R x y -> Q x y) -> StronglySorted R l -> StronglySorted Q l.
Proof.
  induction l as [|a l IH]; intros E S; [constructor|]. apply StronglySorted_inv in S. destruct S as [S F]. constructor.
  - apply IH; [|exact S]. intros x y Hx Hy. apply E; right; assumption.
  - rewrite Forall_forall in F |- *. intros x Hx. apply E; [left; reflexivity|right; exact Hx|apply F, Hx].
Qed.

Lemma pack_ok B k L : wf_hg B -> (0 < k)%nat -> forall l nn h s blocks, post_inv B (fun _ => true) nn h s -> pk s = k -> blocks_sorted k L s blocks -> NoDup l ->
  (forall v, In v l -> In v (nodes B) /\ nn v = false) ->
  exists h' s' asg, pack B L h s blocks l = Some (h', s') /\ map fst asg = l /\ packed k (nw B) L (wt s) asg (wt s') /\ part s' = moves (part s) asg /\
    post_inv B (fun _ => true) (turned_on nn l) h' s' /\ pk s' = k /\ hs_rn h' = hs_rn h.
Proof.
  intros WF K0. induction l as [|u l IH]; intros nn h s blocks I K BS ND Q.
  { exists h, s, []. split; [reflexivity|]. split; [reflexivity|]. split; [apply pk_nil|]. split; [reflexivity|]. split; [exact I|]. split; [exact K|reflexivity]. }
  apply NoDup_cons_iff in ND. destruct ND as [Nu ND]. destruct (Q u (or_introl eq_refl)) as [Hu Hn]. destruct BS as [BP BS].
  destruct blocks as [|to rest]; [apply Permutation_length in BP; rewrite seq_length in BP; cbn in BP; lia|].
  assert (Ht : (to < k)%nat) by (assert (X : In to (seq 0 k)) by (apply (Permutation_in _ BP); left; reflexivity); apply in_seq in X; lia).
  assert (Ht' : (to < pk s)%nat) by (rewrite K; exact Ht).
  destruct (post_node B nn h s u to WF I Hu Hn Ht') as (h1 & E1 & E2 & I1 & R1). set (s1 := mkPHG _ _ _ _ _) in *.
  destruct (IH (upd nn u true) h1 s1 (bubble (distance_to_max L s1) to rest) I1 K) as (h2 & s2 & asg & E3 & M & PK & PT & I2 & K2 & R2).
  - split; [rewrite bubble_perm; exact BP|]. apply bubble_sorted. apply StronglySorted_inv in BS. destruct BS as [BS BF].
    assert (NDb : NoDup (to :: rest)) by (apply (Permutation_NoDup (Permutation_sym BP)), seq_NoDup). apply NoDup_cons_iff in NDb. destruct NDb as [Nt _].
    apply (sorted_ext (fun a b => distance_to_max L s a <= distance_to_max L s b)); [|exact BS]. intros x y Hx Hy. unfold distance_to_max, s1; cbn [wt].
    rewrite !upd_other; [auto| |]; intros ->; contradiction.
  - exact ND.
  - intros v Hv. destruct (Q v (or_intror Hv)) as [A C]. split; [exact A|]. rewrite upd_other; [exact C|]. intros ->. contradiction.
  - exists h2, s2, ((u, to) :: asg). cbn [pack]. rewrite E1, E2. split; [exact E3|]. split; [cbn; rewrite M; reflexivity|]. split; [|split; [|split; [|split; [exact K2|congruence]]]].
    + apply pk_cons; [exact Ht| |exact PK]. intros c Hc. apply StronglySorted_inv in BS. destruct BS as [_ BF]. rewrite Forall_forall in BF.
      assert (X : In c (to :: rest)) by (apply (Permutation_in _ (Permutation_sym BP)), in_seq; lia). destruct X as [<-|X]; [lia|]. specialize (BF c X). unfold distance_to_max in BF. lia.
    + rewrite PT. reflexivity.
    + apply (post_ext B (fun _ => true) (fun _ => true) (turned_on (upd nn u true) l) _ h2 s2); [reflexivity| |exact I2]. intros x. unfold turned_on, upd, mem. cbn [existsb].
      destruct (Nat.eqb x u), (existsb (Nat.eqb x) l), (nn x); reflexivity.
Qed.

(** The order of :76-80: a permutation, heavier nodes first. *)
Lemma sort_removed_perm B l : Permutation (sort_removed B l) l.
Proof.
  assert (P : forall a r, Permutation (insert_by B a r) (a :: r)).
  { intros a r. induction r as [|b r IH]; cbn [insert_by]; [reflexivity|]. destruct (heavier B a b); [reflexivity|]. rewrite IH. apply perm_swap. }
  unfold sort_removed. induction l as [|a l IH]; cbn [fold_right]; [reflexivity|]. rewrite P, IH. reflexivity.
Qed.
Lemma sort_removed_sorted B l : StronglySorted (fun a b => nw B b <= nw B a) (sort_removed B l).
Proof.
  assert (P : forall a r, Permutation (insert_by B a r) (a :: r)).
  { intros a r. induction r as [|b r IH]; cbn [insert_by]; [reflexivity|]. destruct (heavier B a b); [reflexivity|]. rewrite IH. apply perm_swap. }
  assert (G : forall a r, StronglySorted (fun a b => nw B b <= nw B a) r -> StronglySorted (fun a b => nw B b <= nw B a) (insert_by B a r)).
  { intros a r. induction r as [|b r IH]; intros S; cbn [insert_by]; [constructor; constructor|]. pose proof S as S'. apply StronglySorted_inv in S. destruct S as [S F]. rewrite Forall_forall in F.
    destruct (heavier B a b) eqn:Hb.
    - constructor; [exact S'|]. assert (X : nw B b <= nw B a) by (unfold heavier in Hb; lia). apply Forall_forall. intros x [<-|Hx]; [exact X|]. specialize (F x Hx). lia.
    - constructor; [apply IH, S|]. assert (X : nw B a <= nw B b) by (unfold heavier in Hb; lia). apply Forall_forall. intros x Hx. apply (Permutation_in _ (P a r)) in Hx. destruct Hx as [<-|Hx]; [exact X|apply F, Hx]. }
  unfold sort_removed. induction l as [|a l IH]; cbn [fold_right]; [constructor|apply G, IH].
Qed.

(** *** What the greedy packing guarantees *)
Lemma packed_total k w L W asg W' : packed k w L W asg W' -> sumZ W' (seq 0 k) = sumZ W (seq 0 k) + sumZ w (map fst asg).
Proof.
  induction 1 as [W|W v b r W' Hb Mx P IH]; [cbn; lia|]. rewrite IH. cbn [map fst sumZ].
  rewrite (sumZ_change1 (upd W b (W b + w v)) W (seq 0 k) b (seq_NoDup _ _)); [|intros x _ Nx; apply upd_other, Nx]. fold (mem b (seq 0 k)). rewrite (mem_seq b k Hb), upd_same. lia.
Qed.
Lemma packed_mono k w L W asg W' : packed k w L W asg W' -> (forall v, In v (map fst asg) -> 0 <= w v) -> forall b, W b <= W' b.
Proof.
  induction 1 as [W|W v b r W' Hb Mx P IH]; intros N c; [lia|]. assert (0 <= w v) by (apply N; left; reflexivity).
  assert (X : upd W b (W b + w v) c <= W' c) by (apply IH; intros x Hx; apply N; right; exact Hx). unfold upd in X. destruct (Nat.eqb_spec c b) as [Q|Q]; [rewrite Q in *; lia|lia].
Qed.
(** A block that received nodes exceeds its limit by at most (k-1)/k of the weight of one of them, if the capacities suffice in total. *)
Lemma packed_overload k w L W asg W' : packed k w L W asg W' -> (forall v, In v (map fst asg) -> 0 <= w v) -> sumZ W' (seq 0 k) <= sumZ L (seq 0 k) ->
  forall b, (b < k)%nat -> W' b = W b \/ exists v, In v (map fst asg) /\ Z.of_nat k * (W' b - L b) <= (Z.of_nat k - 1) * w v.
Proof.
  induction 1 as [W|W v b r W' Hb Mx P IH]; intros N T c Hc; [left; reflexivity|].
  assert (N' : forall x, In x (map fst r) -> 0 <= w x) by (intros x Hx; apply N; right; exact Hx). assert (Nv : 0 <= w v) by (apply N; left; reflexivity).
  destruct (IH N' T c Hc) as [E|(x & Hx & E)]; [|right; exists x; split; [right; exact Hx|exact E]].
  unfold upd in E. destruct (Nat.eqb_spec c b) as [Q|Q]; [|left; exact E]. right. exists v. split; [left; reflexivity|]. rewrite Q in *. rewrite E.
  pose proof (packed_total _ _ _ _ _ _ P) as Tot. pose proof (sumZ_nonneg w (map fst r) N') as Nr.
  rewrite (sumZ_change1 (upd W b (W b + w v)) W (seq 0 k) b (seq_NoDup _ _)) in Tot by (intros y _ Ny; apply upd_other, Ny). fold (mem b (seq 0 k)) in Tot. rewrite (mem_seq b k Hb), upd_same in Tot.
  assert (Avg : sumZ (fun y => L y - W y) (seq 0 k) <= sumZ (fun _ => L b - W b) (seq 0 k)) by (apply sumZ_le; intros y Hy; apply in_seq in Hy; apply Mx; lia).
  rewrite sumZ_const, seq_length, sumZ_minus in Avg. nia.
Qed.

(** ** Main theorems *)
(** Same nodes, hyperedges, pins and weights; incident hyperedges up to order. *)
Definition same_hypergraph (H B : hypergraph) : Prop :=
  nodes H = nodes B /\ edges H = edges B /\ pins H = pins B /\ nw H = nw B /\ ew H = ew B /\ forall v, In v (nodes B) -> Permutation (inc H v) (inc B v).

Lemma intact_same B h : wf_hg B -> intact B h -> same_hypergraph (view B h) B.
Proof.
  intros WF [I _]. pose proof I as (I1 & I2 & I3 & I4). split; [cbn; apply filter_all_true; intros x _; apply I3|]. split; [cbn; apply filter_all_true; intros x _; apply I2|].
  repeat (split; [reflexivity|]). intros v Hv. destruct (view_inc B _ _ h v I Hv) as [N M]. apply NoDup_Permutation; [exact N|apply (wf_inc_nodup B WF v Hv)|]. intros e. rewrite M. tauto.
Qed.

(** What postprocessing needs to know about the schedule: processing orders are permutations of the pins, std::sort sorts. *)
Definition good_schedule (B : hypergraph) (k : nat) (L : nat -> Z) (ord ord2 : nat -> list nat) (chunks : nat -> list (list nat)) (pick : phg -> list nat) : Prop :=
  (forall e, In e (edges B) -> Permutation (ord e) (pins B e) /\ Permutation (ord2 e) (pins B e) /\ Permutation (concat (chunks e)) (pins B e)) /\
  forall s, blocks_sorted k L s (pick s).

(** Result of postprocessing on a state s1 of the reduced hypergraph. *)
Definition completed (B : hypergraph) (k : nat) (L : nat -> Z) (s1 : phg) (Zs lg : list nat) (h' : hstate) (s' : phg) : Prop :=
  intact B h' /\ started (view B h') s' /\ pk s' = k /\
  (forall v, In v (nodes B) -> ~ In v Zs -> part s' v = part s1 v) /\
  (exists asg, Permutation (map fst asg) Zs /\ StronglySorted (fun a b => nw B b <= nw B a) (map fst asg) /\ packed k (nw B) L (wt s1) asg (wt s') /\ part s' = moves (part s1) asg) /\
  (forall e, In e (edges B) -> connectivity B (part s') e = connectivity B (part s1) e).

Lemma moves_other asg : forall P v, ~ In v (map fst asg) -> moves P asg v = P v.
Proof.
  unfold moves. induction asg as [|[u b] asg IH]; intros P v N; [reflexivity|]. cbn [fold_left fst snd]. rewrite IH; [|intros Q; apply N; right; exact Q].
  unfold move. apply upd_other. intros ->. apply N. left. reflexivity.
Qed.

Lemma postprocess_ok B k L fixed limit thr ord ord2 chunks pick h h1 s1 Zs lg sg : wf_hg B -> (0 < k)%nat -> good_schedule B k L ord ord2 chunks pick -> intact B h ->
  sanitize B fixed limit thr ord h = Some (h1, Zs, lg, sg) ->
  consistent (view B h1) s1 -> complete (view B h1) (part s1) k -> pk s1 = k -> outside (view B h1) s1 ->
  exists h' s', postprocess B L ord2 chunks pick h1 s1 Zs lg sg = Some (h', s') /\ completed B k L s1 Zs lg h' s'.
Proof.
  intros WF K0 (GO & GP) IH SA C HC K [O1 O2].
  destruct (sanitize_ok B fixed limit thr ord h WF (fun e He => proj1 (GO e He)) IH) as (h1' & Zs' & lg' & sg' & SA' & I & NZ & NE & QZ & LZ & QL & QS & RN).
  rewrite SA in SA'. injection SA' as <- <- <- <-. clear SA. pose proof I as (I1 & I2 & I3 & I4).
  assert (PI : post_inv B (turned_off (fun _ => true) (lg ++ sg)) (turned_off (fun _ => true) Zs) h1 s1).
  { split; [exact I|]. split; [exact C|]. split; [rewrite K; exact HC|]. split.
    - intros e He Hen. apply O1. cbn [view edges]. rewrite filter_In, I2, Hen. intros [_ Q]. discriminate.
    - intros v Hv Hnn. apply O2. cbn [view nodes]. rewrite filter_In, I3, Hnn. intros [_ Q]. discriminate. }
  destruct (restoreHyperedges_ok B ord2 chunks _ _ h1 s1 lg sg WF PI NE) as (h2 & s2 & E2 & PI2 & P2 & W2 & K2 & R2).
  { intros e He. destruct (proj1 (QL e) He) as [He' _]. destruct (GO e He') as (_ & G2 & G3). split; [exact He'|]. split; [|auto].
    unfold turned_off. rewrite (proj2 (mem_In e (lg ++ sg))); [reflexivity|]. apply in_or_app. left. exact He. }
  { intros e He. destruct (proj1 (QS e) He) as [He' Le]. split; [exact He'|]. split; [|exact Le].
    unfold turned_off. rewrite (proj2 (mem_In e (lg ++ sg))); [reflexivity|]. apply in_or_app. right. exact He. }
  assert (PI3 : post_inv B (fun _ => true) (turned_off (fun _ => true) Zs) h2 s2).
  { apply (post_ext B (turned_on (turned_off (fun _ => true) (lg ++ sg)) (lg ++ sg)) _ (turned_off (fun _ => true) Zs) _ h2 s2); [|reflexivity|exact PI2].
    intros x. unfold turned_on, turned_off. destruct (mem x (lg ++ sg)); reflexivity. }
  assert (PS : Permutation (sort_removed B Zs) Zs) by apply sort_removed_perm.
  destruct (pack_ok B k L WF K0 (sort_removed B Zs) (turned_off (fun _ => true) Zs) h2 s2 (pick s2) PI3 ltac:(congruence) (GP s2)) as (h3 & s3 & asg & E3 & M & PK & PT & PI4 & K3 & R3).
  { apply (Permutation_NoDup (Permutation_sym PS)), NZ. }
  { intros v Hv. apply (Permutation_in _ PS) in Hv. split; [apply (QZ v Hv)|]. unfold turned_off. rewrite (proj2 (mem_In v Zs) Hv). reflexivity. }
  assert (PI5 : post_inv B (fun _ => true) (fun _ => true) h3 s3).
  { apply (post_ext B (fun _ => true) (fun _ => true) (turned_on (turned_off (fun _ => true) Zs) (sort_removed B Zs)) _ h3 s3); [reflexivity| |exact PI4].
    intros x. unfold turned_on, turned_off. destruct (mem_spec x Zs) as [Q|Q]; [|cbn; rewrite orb_true_r; reflexivity].
    rewrite (proj2 (mem_In x (sort_removed B Zs))); [reflexivity|]. apply (Permutation_in _ (Permutation_sym PS)), Q. }
  exists h3, s3. unfold postprocess. rewrite E2. unfold restoreDegreeZero. rewrite E3. split; [reflexivity|].
  destruct PI5 as (J & JC & JH & _ & _).
  split; [split; [exact J|]|].
  { rewrite R3, R2. exact RN. }
  split; [split; [apply (view_wf B WF _ _ h3 J)|]|].
  { split; [exact JC|exact JH]. }
  split; [exact K3|]. split; [|split].
  - intros v Hv NZv. rewrite PT, P2. apply moves_other. rewrite M. intros Q. apply NZv, (Permutation_in _ PS), Q.
  - exists asg. rewrite M. split; [exact PS|]. split; [apply sort_removed_sorted|]. rewrite W2 in PK. split; [exact PK|]. rewrite PT, P2. reflexivity.
  - intros e He. apply connectivity_ext. intros v Hv. rewrite PT, P2. apply moves_other. rewrite M. intros Q. apply (Permutation_in _ PS) in Q.
    destruct (QZ v Q) as (Hn & Z & _). assert (X : In e (inc B v)) by (apply (wf_inc B WF v e Hn); auto). rewrite Z in X. destruct X.
Qed.

Lemma edges_split B (en : nat -> bool) l : NoDup (edges B) -> NoDup l -> (forall e, In e l <-> In e (edges B) /\ en e = false) -> Permutation (edges B) (filter en (edges B) ++ l).
Proof.
  intros N1 N2 Q. apply NoDup_Permutation; [exact N1| |].
  - apply NoDup_app_; [apply NoDup_filter_, N1|exact N2|]. intros a Ha Hb. apply filter_In in Ha. apply Q in Hb. destruct Ha, Hb. congruence.
  - intros x. rewrite in_app_iff, filter_In, Q. destruct (en x); tauto.
Qed.
Lemma single_pin_connectivity B P e v b : pins B e = [v] -> P v = Some b -> connectivity B P e = 1.
Proof. intros Pv E. unfold connectivity, blocks_of. rewrite Pv. cbn [flat_map]. rewrite E. reflexivity. Qed.

(** C54.  [alg] is any partitioner of the reduced hypergraph that works through the API of the partition data structure ([worked]).
    The call removes [Zs], [lg], [sg] (exactly: some isolated, non-fixed nodes; all hyperedges larger than the threshold; all single-pin
    hyperedges), and returns a partition of the complete input with exact bookkeeping, in which all other nodes keep the block computed
    on the reduced hypergraph, and the objective is that of the reduced hypergraph plus the contribution of the large hyperedges. *)
Theorem C54_partition_covers_input B k L fixed limit thr ord ord2 chunks pick h alg : wf_hg B -> (0 < k)%nat -> good_schedule B k L ord ord2 chunks pick -> intact B h ->
  exists h1 Zs lg sg, sanitize B fixed limit thr ord h = Some (h1, Zs, lg, sg) /\
    (forall v, In v Zs -> In v (nodes B) /\ inc B v = [] /\ fixed v = false) /\
    (forall e, In e lg <-> In e (edges B) /\ (thr < length (pins B e))%nat /\ length (pins B e) <> 1%nat) /\
    (forall e, In e sg <-> In e (edges B) /\ length (pins B e) = 1%nat) /\
    (worked (view B h1) k (alg (view B h1)) ->
     exists h' s', partition_call B L fixed limit thr ord ord2 chunks pick h alg = Some (h', s') /\
       intact B h' /\ same_hypergraph (view B h') B /\ started (view B h') s' /\ pk s' = k /\ complete B (part s') k /\
       (forall v, In v (nodes B) -> ~ In v Zs -> part s' v = part (alg (view B h1)) v) /\
       km1 B (part s') = km1 (view B h1) (part (alg (view B h1))) + sumZ (km1_edge B (part (alg (view B h1)))) lg /\
       cut B (part s') = cut (view B h1) (part (alg (view B h1))) + sumZ (cut_edge B (part (alg (view B h1)))) lg /\
       soed B (part s') = soed (view B h1) (part (alg (view B h1))) + sumZ (soed_edge B (part (alg (view B h1)))) lg).
Proof.
  intros WF K0 GS IH. destruct (sanitize_ok B fixed limit thr ord h WF (fun e He => proj1 (proj1 GS e He)) IH) as (h1 & Zs & lg & sg & SA & I & NZ & NE & QZ & LZ & QL & QS & RN).
  exists h1, Zs, lg, sg. split; [exact SA|]. split; [exact QZ|]. split; [exact QL|]. split; [exact QS|]. intros W. set (s1 := alg (view B h1)) in *.
  pose proof (view_wf B WF _ _ h1 I) as WF1. destruct (worked_inv (view B h1) k s1 WF1 W) as (C & HC & K & O).
  destruct (postprocess_ok B k L fixed limit thr ord ord2 chunks pick h h1 s1 Zs lg sg WF K0 GS IH SA C HC K O) as (h' & s' & E & CP).
  exists h', s'. unfold partition_call. rewrite SA. split; [exact E|]. destruct CP as (J & ST & K' & KEEP & _ & CO).
  split; [exact J|]. pose proof (intact_same B h' WF J) as SH. split; [exact SH|]. split; [exact ST|]. split; [exact K'|].
  assert (HB : complete B (part s') k).
  { destruct ST as (_ & _ & HC'). rewrite K' in HC'. intros v Hv. apply HC'. destruct SH as (SN & _). rewrite SN. exact Hv. }
  split; [exact HB|]. split; [exact KEEP|].
  assert (SP : Permutation (edges B) (edges (view B h1) ++ lg ++ sg)).
  { cbn [view edges]. apply edges_split; [apply WF|exact NE|]. intros e. destruct I as (_ & I2 & _). rewrite I2. unfold turned_off.
    rewrite in_app_iff, QL, QS. destruct (mem_spec e (lg ++ sg)) as [Q|Q]; rewrite in_app_iff, QL, QS in Q; cbn; split; try tauto. intros [_ X]. discriminate. }
  assert (SG : forall e, In e sg -> connectivity B (part s') e = 1).
  { intros e He. apply QS in He. destruct He as [He Le]. destruct (pins B e) as [|v [|w r]] eqn:PV; try discriminate.
    destruct (HB v) as (b & Eb & _); [apply (wf_pins_nodes B WF e v He); rewrite PV; left; reflexivity|]. apply (single_pin_connectivity B _ e v b PV Eb). }
  assert (G : forall f : hypergraph -> partition -> nat -> Z, (forall P Q e, connectivity B P e = connectivity B Q e -> f B P e = f B Q e) ->
    (forall P e, connectivity B P e = 1 -> f B P e = 0) -> (forall P e, f (view B h1) P e = f B P e) ->
    sumZ (f B (part s')) (edges B) = sumZ (f (view B h1) (part s1)) (edges (view B h1)) + sumZ (f B (part s1)) lg).
  { intros f F1 F2 F3. rewrite (sumZ_perm _ _ _ SP), !sumZ_app. rewrite (sumZ_zero _ sg) by (intros e He; apply F2, SG, He).
    rewrite (sumZ_ext _ (f (view B h1) (part s1)) (edges (view B h1))).
    - rewrite (sumZ_ext _ (f B (part s1)) lg); [lia|]. intros e He. apply F1, CO, QL, He.
    - intros e He. rewrite F3. apply F1, CO. cbn [view edges] in He. apply filter_In in He. apply He. }
  split; [|split].
  - apply (G km1_edge); [intros P Q e E1; unfold km1_edge; rewrite E1; reflexivity|intros P e E1; unfold km1_edge; rewrite E1; lia|reflexivity].
  - apply (G cut_edge); [intros P Q e E1; unfold cut_edge; rewrite E1; reflexivity|intros P e E1; unfold cut_edge; rewrite E1; reflexivity|reflexivity].
  - apply (G soed_edge); [intros P Q e E1; unfold soed_edge; rewrite E1; reflexivity|intros P e E1; unfold soed_edge; rewrite E1; reflexivity|reflexivity].
Qed.

(** C29.  The removed isolated nodes are placed heaviest first, each into a block with the largest remaining capacity, and the reported
    block weights follow; if the total weight fits into the capacities, every block either keeps the weight it had on the reduced
    hypergraph or is overloaded by at most (k-1)/k of the weight of a restored node; hence balance is preserved for weights up to 1. *)
Theorem C29_isolated_nodes_restored B k L fixed limit thr ord ord2 chunks pick h alg h1 Zs lg sg h' s' : wf_hg B -> (0 < k)%nat -> good_schedule B k L ord ord2 chunks pick -> intact B h ->
  sanitize B fixed limit thr ord h = Some (h1, Zs, lg, sg) -> worked (view B h1) k (alg (view B h1)) ->
  partition_call B L fixed limit thr ord ord2 chunks pick h alg = Some (h', s') ->
  let s1 := alg (view B h1) in
  (forall v, In v Zs -> exists b, part s' v = Some b /\ (b < k)%nat) /\
  (exists asg, Permutation (map fst asg) Zs /\ StronglySorted (fun a b => nw B b <= nw B a) (map fst asg) /\ packed k (nw B) L (wt s1) asg (wt s') /\ part s' = moves (part s1) asg) /\
  (forall b, (b < k)%nat -> wt s' b = block_weight B (part s') b) /\
  (forall e, In e (edges B) -> connectivity B (part s') e = connectivity B (part s1) e) /\
  ((forall v, In v Zs -> 0 <= nw B v) -> total_weight B <= sumZ L (seq 0 k) ->
    (forall b, (b < k)%nat -> wt s' b = wt s1 b \/ exists v, In v Zs /\ Z.of_nat k * (wt s' b - L b) <= (Z.of_nat k - 1) * nw B v) /\
    ((forall v, In v Zs -> nw B v <= 1) -> balanced (view B h1) (part s1) k L -> balanced B (part s') k L)).
Proof.
  intros WF K0 GS IH SA W PC s1.
  destruct (sanitize_ok B fixed limit thr ord h WF (fun e He => proj1 (proj1 GS e He)) IH) as (h1' & Zs' & lg' & sg' & SA' & I & NZ & NE & QZ & _).
  rewrite SA in SA'. injection SA' as <- <- <- <-. pose proof (view_wf B WF _ _ h1 I) as WF1. destruct (worked_inv (view B h1) k s1 WF1 W) as (C & HC & K & O).
  destruct (postprocess_ok B k L fixed limit thr ord ord2 chunks pick h h1 s1 Zs lg sg WF K0 GS IH SA C HC K O) as (h2 & s2 & E & CP).
  unfold partition_call in PC. rewrite SA in PC. unfold s1 in E. rewrite E in PC. injection PC as <- <-.
  destruct CP as (J & ST & K' & KEEP & (asg & A1 & A2 & A3 & A4) & CO). destruct ST as (_ & CC & HC'). pose proof (intact_same B h2 WF J) as (SN & _ & _ & SW & _).
  assert (BW : forall b, (b < k)%nat -> wt s2 b = block_weight B (part s2) b).
  { intros b Hb. rewrite (c_wt _ _ CC b) by (rewrite K'; exact Hb). unfold block_weight. rewrite SN, SW. reflexivity. }
  split; [|split; [|split; [|split]]].
  - intros v Hv. rewrite K' in HC'. apply HC'. rewrite SN. apply (QZ v Hv).
  - exists asg. auto.
  - exact BW.
  - exact CO.
  - intros NN TW. assert (NN' : forall v, In v (map fst asg) -> 0 <= nw B v) by (intros v Hv; apply NN, (Permutation_in _ A1), Hv).
    assert (TS : sumZ (wt s2) (seq 0 k) <= sumZ L (seq 0 k)).
    { rewrite (sumZ_ext _ (block_weight B (part s2)) (seq 0 k)) by (intros b Hb; apply in_seq in Hb; apply BW; lia).
      rewrite block_weights_total; [exact TW|]. intros v Hv. rewrite K' in HC'. apply HC'. rewrite SN. exact Hv. }
    pose proof (packed_overload k (nw B) L _ asg _ A3 NN' TS) as OV.
    assert (OV' : forall b, (b < k)%nat -> wt s2 b = wt s1 b \/ exists v, In v Zs /\ Z.of_nat k * (wt s2 b - L b) <= (Z.of_nat k - 1) * nw B v).
    { intros b Hb. destruct (OV b Hb) as [Q|(v & Hv & Q)]; [left; exact Q|right; exists v; split; [apply (Permutation_in _ A1), Hv|exact Q]]. }
    split; [exact OV'|]. intros LE BAL b Hb. rewrite <- BW by exact Hb. destruct (OV' b Hb) as [Q|(v & Hv & Q)].
    + rewrite Q. rewrite (c_wt _ _ C b) by (rewrite K; exact Hb). apply BAL, Hb.
    + specialize (LE v Hv). specialize (NN v Hv). nia.
Qed.

(** C30 (partition): hyperedges restored in any order, in any mix of the two restore operations, with any schedule. *)
Definition restore_any (B : hypergraph) (ord2 : nat -> list nat) (chunks : nat -> list (list nat)) (big : nat -> bool) (x : hstate * phg) (e : nat) : option (hstate * phg) :=
  if big e then restore_large B ord2 chunks x e else restore_single B x e.
Theorem C30_restore_in_partition B en nn l h k s ord2 chunks (big : nat -> bool) rs : wf_hg B -> history B en nn l -> hrun B (hinit B) l = Some h -> worked (view B h) k s ->
  NoDup rs -> (forall e, In e rs -> In e (edges B) /\ en e = false /\
    if big e then Permutation (ord2 e) (pins B e) /\ Permutation (concat (chunks e)) (pins B e) else length (pins B e) = 1%nat) ->
  exists h' s', fold_opt (restore_any B ord2 chunks big) (h, s) rs = Some (h', s') /\
    nodes (view B h') = nodes (view B h) /\ edges (view B h') = filter (fun e => mem e rs || en e) (edges B) /\
    part s' = part s /\ (forall b, wt s' b = wt s b) /\ started (view B h') s'.
Proof.
  intros WF Hh Eh W ND Q. destruct (history_hinv B WF en nn l Hh) as (h0 & E0 & I). rewrite Eh in E0. injection E0 as <-.
  pose proof (view_wf B WF _ _ h I) as WF1. destruct (worked_inv (view B h) k s WF1 W) as (C & HC & K & O1 & O2). pose proof I as (I1 & I2 & I3 & I4).
  assert (PI : post_inv B en nn h s).
  { split; [exact I|]. split; [exact C|]. split; [rewrite K; exact HC|]. split.
    - intros e He Hen. apply O1. cbn [view edges]. rewrite filter_In, I2, Hen. intros [_ X]. discriminate.
    - intros v Hv Hnn. apply O2. cbn [view nodes]. rewrite filter_In, I3, Hnn. intros [_ X]. discriminate. }
  set (ok := fun e : nat => if big e then Permutation (ord2 e) (pins B e) /\ Permutation (concat (chunks e)) (pins B e) else length (pins B e) = 1%nat).
  assert (ST : forall en nn h s e, post_inv B en nn h s -> ok e -> In e (edges B) -> en e = false ->
     exists h' s', restore_any B ord2 chunks big (h, s) e = Some (h', s') /\ post_inv B (upd en e true) nn h' s' /\ part s' = part s /\ wt s' = wt s /\ pk s' = pk s /\ hs_rn h' = hs_rn h).
  { intros en0 nn0 h0 s0 e J Ok He Hen. unfold ok in Ok. unfold restore_any. destruct (big e); [destruct Ok; apply restore_large_ok; assumption|apply restore_single_ok; assumption]. }
  destruct (restore_fold B (restore_any B ord2 chunks big) ok ST rs en nn h s PI ND) as (h' & s' & E & PI' & P & Wt & K' & _).
  { intros e He. destruct (Q e He) as (A & D & F). auto. }
  { exists h', s'. split; [exact E|]. destruct PI' as (J & JC & JH & _). pose proof J as (_ & J2 & J3 & _).
    split; [cbn; apply filter_ext; intros v; rewrite J3, I3; reflexivity|]. split; [cbn; apply filter_ext; exact J2|]. split; [exact P|]. split; [intros b; rewrite Wt; reflexivity|].
    split; [apply (view_wf B WF _ _ h' J)|]. split; assumption. }
Qed.

(** C31.  Improving a partition with at least one V-cycle (mode direct), each V-cycle computing any partition of the reduced hypergraph
    through the API: the result is a partition of the complete hypergraph with exact bookkeeping. *)
Theorem C31_improve_consistent B k L fixed limit thr ord ord2 chunks pick h s0 alg nv : wf_hg B -> (0 < k)%nat -> good_schedule B k L ord ord2 chunks pick -> intact B h ->
  started (view B h) s0 -> pk s0 = k -> (1 <= nv)%nat ->
  (forall h1 Zs lg sg i s, sanitize B fixed limit thr ord h = Some (h1, Zs, lg, sg) -> complete (view B h1) (part s) k -> worked (view B h1) k (alg i (view B h1) s)) ->
  exists h' s', improve_call B L fixed limit thr ord ord2 chunks pick true nv h s0 alg = Some (inl (h', s')) /\
    intact B h' /\ same_hypergraph (view B h') B /\ started (view B h') s' /\ pk s' = k /\ complete B (part s') k.
Proof.
  intros WF K0 GS IH (_ & C0 & H0) E0 NV AL. destruct (sanitize_ok B fixed limit thr ord h WF (fun e He => proj1 (proj1 GS e He)) IH) as (h1 & Zs & lg & sg & SA & I & _).
  assert (W : forall n, (1 <= n)%nat -> worked (view B h1) k (vcycles n (view B h1) alg s0)).
  { induction n as [|n IHn]; intros Hn; [lia|]. cbn [vcycles]. apply (AL h1 Zs lg sg (S n) _ SA). destruct n as [|n].
    - cbn [vcycles]. rewrite E0 in H0. intros v Hv. apply H0. cbn [view nodes] in Hv |- *. apply filter_In in Hv. destruct IH as [(_ & _ & J3 & _) _]. apply filter_In. split; [apply Hv|apply J3].
    - apply (worked_inv (view B h1) k _ (view_wf B WF _ _ h1 I)). apply IHn. lia. }
  set (s1 := vcycles nv (view B h1) alg s0). specialize (W nv NV). fold s1 in W. destruct (worked_inv (view B h1) k s1 (view_wf B WF _ _ h1 I) W) as (C & HC & K & O).
  destruct (postprocess_ok B k L fixed limit thr ord ord2 chunks pick h h1 s1 Zs lg sg WF K0 GS IH SA C HC K O) as (h' & s' & E & (J & ST & K' & _)).
  exists h', s'. unfold improve_call. rewrite SA. fold s1. rewrite E. split; [reflexivity|]. split; [exact J|]. pose proof (intact_same B h' WF J) as SH. split; [exact SH|]. split; [exact ST|]. split; [exact K'|].
  destruct ST as (_ & _ & HC'). rewrite K' in HC'. intros v Hv. apply HC'. destruct SH as (SN & _). rewrite SN. exact Hv.
Qed.
(** With zero V-cycles the partition is returned as it was, provided preprocessing removes nothing. *)
Theorem C31_zero_vcycles_nothing_removed B L fixed limit thr ord ord2 chunks pick h s0 alg h1 :
  sanitize B fixed limit thr ord h = Some (h1, [], [], []) -> improve_call B L fixed limit thr ord ord2 chunks pick true 0 h s0 alg = Some (inl (h1, s0)).
Proof. intros SA. unfold improve_call. rewrite SA. reflexivity. Qed.
