(** GainCompThms.v - the computed gain is the exact change of the objective and the proposed block is a best feasible one. *)
From Verif Require Import Base Spec SpecLemmas PHG PHGProofs Objective GainCache GainCacheProofs Metrics PropsA RollbackProofs GainComp.

Lemma sc_add_keys l to x : forall b, In b (map fst (sc_add l to x)) <-> b = to \/ In b (map fst l).
Proof.
  induction l as [|[c y] l IH]; intros b; cbn [sc_add map fst In]; [intuition congruence|].
  destruct (Nat.eqb_spec c to) as [->|Ne]; cbn [map fst In]; [intuition congruence|]. rewrite IH. intuition congruence.
Qed.
Lemma sc_add_nodup l to x : NoDup (map fst l) -> NoDup (map fst (sc_add l to x)).
Proof.
  induction l as [|[c y] l IH]; cbn [sc_add map fst]; intros N; [constructor; [intros []|constructor]|].
  inversion N; subst. destruct (Nat.eqb_spec c to) as [->|Ne]; cbn [map fst]; [exact N|]. constructor; [|apply IH; assumption].
  rewrite sc_add_keys. intros [E|E]; [congruence|contradiction].
Qed.
Lemma sc_add_agg l to x b : agg b (sc_add l to x) = agg b l + if Nat.eqb b to then x else 0.
Proof.
  unfold agg. induction l as [|[c y] l IH]; cbn [sc_add sumZ fst snd].
  - rewrite (Nat.eqb_sym b to). destruct (Nat.eqb to b); cbn; lia.
  - destruct (Nat.eqb_spec c to) as [->|Ne]; cbn [sumZ fst snd].
    + rewrite (Nat.eqb_sym b to). destruct (Nat.eqb to b); lia.
    + rewrite IH. lia.
Qed.

Lemma blocks_of_nodup H P e : NoDup (blocks_of H P e).
Proof. apply NoDup_nodup. Qed.
Lemma blocks_of_in H P e b : In b (blocks_of H P e) <-> exists v, In v (pins H e) /\ P v = Some b.
Proof.
  unfold blocks_of. rewrite nodup_In, in_flat_map. split.
  - intros (v & Hv & Hb). exists v. split; [exact Hv|]. destruct (P v) as [c|]; [destruct Hb as [->|[]]; reflexivity|destruct Hb].
  - intros (v & Hv & Hb). exists v. rewrite Hb. split; [exact Hv|left; reflexivity].
Qed.
Lemma conn1_full H P e u from : (forall v, In v (pins H e) -> P v <> None) -> In u (pins H e) -> P u = Some from ->
  (connectivity H P e =? 1) = (pin_count H P e from =? esize H e).
Proof.
  intros A Hu Pu. apply eq_true_iff_eq. rewrite !Z.eqb_eq, pin_full_iff. unfold connectivity.
  pose proof (blocks_of_nodup H P e) as N. assert (I : In from (blocks_of H P e)) by (apply blocks_of_in; exists u; tauto). split.
  - intros E v Hv. destruct (blocks_of H P e) as [|x [|y l]] eqn:EB; cbn [length] in E; [lia| |lia]. destruct I as [->|[]].
    destruct (P v) as [c|] eqn:Pv; [|exfalso; exact (A v Hv Pv)]. assert (J : In c (blocks_of H P e)) by (apply blocks_of_in; exists v; tauto).
    rewrite EB in J. destruct J as [->|[]]. reflexivity.
  - intros F. destruct (blocks_of H P e) as [|x [|y l]] eqn:EB; cbn [length]; [destruct I|lia|exfalso].
    assert (X : forall c, In c (blocks_of H P e) -> c = from) by (intros c Hc; apply blocks_of_in in Hc; destruct Hc as (v & Hv & E); rewrite (F v Hv) in E; congruence).
    rewrite EB in X. inversion N as [|? ? Nx _]; subst. apply Nx. left. rewrite (X x), (X y); [reflexivity|right; left; reflexivity|left; reflexivity].
Qed.
Lemma conn2_pair H P e from to : (forall v, In v (pins H e) -> P v <> None) -> from <> to -> 0 < pin_count H P e from -> 0 < pin_count H P e to ->
  (connectivity H P e =? 2) = (pin_count H P e from + pin_count H P e to =? esize H e).
Proof.
  intros A Ne F T. apply eq_true_iff_eq. rewrite !Z.eqb_eq.
  apply pin_count_pos_iff in F. destruct F as (u & Hu & Pu). apply pin_count_pos_iff in T. destruct T as (t & Ht & Pt).
  pose proof (blocks_of_nodup H P e) as N. assert (I : In from (blocks_of H P e)) by (apply blocks_of_in; exists u; tauto).
  assert (J : In to (blocks_of H P e)) by (apply blocks_of_in; exists t; tauto).
  assert (X : pin_count H P e from + pin_count H P e to = esize H e <-> forall v, In v (pins H e) -> P v = Some from \/ P v = Some to).
  { rewrite !pin_count_sum. unfold esize. rewrite sumZ_length, <- sumZ_plus. split.
    - intros E v Hv. assert (Z0 : sumZ (fun v => 1 - (Z.b2z (in_block P from v) + Z.b2z (in_block P to v))) (pins H e) = 0) by (rewrite sumZ_minus; lia).
      assert (G : 1 - (Z.b2z (in_block P from v) + Z.b2z (in_block P to v)) = 0).
      { apply (sumZ_eq0 (fun v => 1 - (Z.b2z (in_block P from v) + Z.b2z (in_block P to v))) (pins H e)); [|exact Z0|exact Hv].
        intros y _. cbn beta. unfold in_block. destruct (P y) as [c|]; [|cbn; lia]. destruct (Nat.eqb_spec c from), (Nat.eqb_spec c to); cbn; lia. }
      unfold in_block in G. destruct (P v) as [c|]; [|cbn in G; lia]. destruct (Nat.eqb_spec c from) as [E1|]; [left; congruence|].
      destruct (Nat.eqb_spec c to) as [E1|]; [right; congruence|cbn in G; lia].
    - intros F. apply sumZ_ext. intros v Hv. unfold in_block. destruct (F v Hv) as [-> | ->]; rewrite Nat.eqb_refl.
      + rewrite (proj2 (Nat.eqb_neq from to) Ne). reflexivity.
      + rewrite (proj2 (Nat.eqb_neq to from)); [reflexivity|congruence]. }
  rewrite X. unfold connectivity. split.
  - intros E v Hv. assert (In2 : forall c, In c (blocks_of H P e) -> c = from \/ c = to).
    { intros c Hc. destruct (blocks_of H P e) as [|x [|y [|z l]]] eqn:EB; cbn [length] in E; try lia.
      destruct I as [I|[I|[]]], J as [J|[J|[]]], Hc as [Hc|[Hc|[]]]; subst; tauto || congruence. }
    destruct (P v) as [c|] eqn:Pv; [|exfalso; exact (A v Hv Pv)]. destruct (In2 c) as [-> | ->]; [apply blocks_of_in; exists v; tauto|tauto|tauto].
  - intros F. assert (Pm : Permutation (blocks_of H P e) [from; to]).
    { apply NoDup_Permutation; [exact N|repeat constructor; cbn; intuition congruence|]. intros c. rewrite blocks_of_in. cbn [In]. split.
      - intros (v & Hv & E). destruct (F v Hv) as [E'|E']; rewrite E' in E; injection E as <-; tauto.
      - intros [<-|[<-|[]]]; [exists u|exists t]; tauto. }
    rewrite (Permutation_length Pm). reflexivity.
Qed.

Section One.
Variables (H : hypergraph) (o : objective) (s : phg).
Hypothesis ST : started H s.
Variables (u from : nat).
Hypothesis (Hu : In u (nodes H)) (Pu : part s u = Some from).
Local Notation P := (part s).

Definition con (b e : nat) : Z :=
  if negb (Nat.eqb b from) && mem b (connectivitySet s e) then match score_edge H o s from e b with Some x => x | None => 0 end else 0.
Lemma edge_scores e : forall sc, let sc' := fold_left (fun sc to => if Nat.eqb to from then sc else match score_edge H o s from e to with Some x => sc_add sc to x | None => sc end)
     (connectivitySet s e) sc in
  (forall b, agg b sc' = agg b sc + con b e) /\ (NoDup (map fst sc) -> NoDup (map fst sc')) /\
  (forall b, In b (map fst sc') -> In b (map fst sc) \/ (b <> from /\ (b < pk s)%nat)).
Proof.
  intros sc. cbn zeta. unfold con. assert (K : forall b, In b (connectivitySet s e) -> (b < pk s)%nat) by (intros b Hb; unfold connectivitySet in Hb; apply filter_In in Hb; destruct Hb as [Hb _]; apply in_seq in Hb; lia).
  pose proof (connectivitySet_nodup s e) as N. revert sc K N. generalize (connectivitySet s e) as l.
  induction l as [|t l IH]; intros sc K N; cbn [fold_left].
  - split; [|tauto]. intros b. cbn [mem existsb]. rewrite andb_false_r. lia.
  - inversion N as [|? ? Nt N']; subst. match goal with |- context [fold_left _ l ?x] => set (sc1 := x) end.
    destruct (IH sc1 (fun b h => K b (or_intror h)) N') as (A & B & C).
    assert (S1 : (forall b, agg b sc1 = agg b sc + if Nat.eqb b t && negb (Nat.eqb b from) then match score_edge H o s from e t with Some x => x | None => 0 end else 0)
      /\ (NoDup (map fst sc) -> NoDup (map fst sc1)) /\ (forall b, In b (map fst sc1) -> In b (map fst sc) \/ (b <> from /\ (b < pk s)%nat))).
    { subst sc1. destruct (Nat.eqb_spec t from) as [->|Nf].
      - split; [|tauto]. intros b. destruct (Nat.eqb b from); cbn; lia.
      - destruct (score_edge H o s from e t) as [x|].
        + split; [|split].
          * intros b. rewrite sc_add_agg. destruct (Nat.eqb_spec b t) as [->|]; cbn [andb]; [|lia]. rewrite (proj2 (Nat.eqb_neq t from) Nf). reflexivity.
          * apply sc_add_nodup.
          * intros b. rewrite sc_add_keys. intros [->|Hb]; [right|tauto]. split; [exact Nf|apply K; left; reflexivity].
        + split; [|tauto]. intros b. destruct (Nat.eqb b t && negb (Nat.eqb b from)); lia. }
    destruct S1 as (A1 & B1 & C1). split; [|split].
    + intros b. rewrite A, A1. unfold mem. cbn [existsb]. destruct (Nat.eqb_spec b t) as [->|Nb].
      * cbn [orb]. rewrite andb_true_r. fold (mem t l). rewrite (proj2 (mem_false t l) Nt), andb_false_r. cbn [andb]. destruct (negb (Nat.eqb t from)); lia.
      * cbn [orb andb]. lia.
    + tauto.
    + intros b Hb. apply C in Hb. destruct Hb as [Hb|Hb]; [apply C1; exact Hb|tauto].
Qed.
Lemma pre_spec sc iso : precomputeGains H o s from u = (sc, iso) ->
  iso = sumZ (iso_edge H o s from) (inc H u) /\ (forall b, agg b sc = sumZ (con b) (inc H u)) /\ NoDup (map fst sc) /\
  (forall b, In b (map fst sc) -> b <> from /\ (b < pk s)%nat).
Proof.
  unfold precomputeGains. generalize (inc H u) as l.
  assert (G : forall l sc0 i0 sc iso, fold_left (pre_edge H o s from) l (sc0, i0) = (sc, iso) -> NoDup (map fst sc0) -> (forall b, In b (map fst sc0) -> b <> from /\ (b < pk s)%nat) ->
    iso = i0 + sumZ (iso_edge H o s from) l /\ (forall b, agg b sc = agg b sc0 + sumZ (con b) l) /\ NoDup (map fst sc) /\ (forall b, In b (map fst sc) -> b <> from /\ (b < pk s)%nat)).
  { induction l as [|e l IH]; intros sc0 i0 sc' iso' E N K; cbn [fold_left] in E.
    - injection E as <- <-. cbn [sumZ]. split; [lia|]. split; [intros; lia|tauto].
    - unfold pre_edge at 2 in E. cbn [fst snd] in E. destruct (edge_scores e sc0) as (A & B & C). apply IH in E; [|apply B; exact N|].
      + destruct E as (E1 & E2 & E3 & E4). cbn [sumZ]. split; [lia|]. split; [intros b; rewrite E2, A; lia|tauto].
      + intros b Hb. apply C in Hb. destruct Hb as [Hb|Hb]; [apply K; exact Hb|exact Hb]. }
  intros l E. apply G in E; [|constructor|intros b []]. destruct E as (E1 & E2 & E3). split; [lia|]. split; [|exact E3]. intros b. rewrite E2. unfold agg. cbn [sumZ]. lia.
Qed.

(** Per hyperedge: the collected terms are the penalty and benefit terms. *)
Definition ptm := match o with Okm1 => km1_pt | Ocut => cut_pt | Osoed => soed_pt end.
Definition btm := match o with Okm1 => km1_bt | Ocut => cut_bt | Osoed => soed_bt end.
Lemma inc_edge e : In e (inc H u) -> In e (edges H) /\ In u (pins H e).
Proof. destruct ST as (WF & _). apply (wf_inc H WF u e Hu). Qed.
Lemma from_lt : (from < pk s)%nat.
Proof. destruct ST as (_ & C & _). apply (c_part H s C u from Pu). Qed.
Lemma pins_some e : In e (edges H) -> forall v, In v (pins H e) -> P v <> None.
Proof. intros He v Hv. destruct ST as (WF & _ & HC). destruct (HC v (wf_pins_nodes H WF e v He Hv)) as (b & E & _). congruence. Qed.
Lemma iso_edge_ok e : In e (inc H u) -> iso_edge H o s from e = ew H e * ptm (esize H e) (pin_count H P e from).
Proof.
  intros Hi. destruct (inc_edge e Hi) as [He Hv]. pose proof ST as (WF & C & HC). pose proof from_lt as Hf.
  unfold iso_edge, ptm, size_of, pinCountInPart. rewrite (conn_eq H s e WF C He), (c_pc H s C e from He Hf). fold (esize H e).
  assert (F : 0 < pin_count H P e from) by (apply pin_count_pos_iff; exists u; tauto).
  destruct o; cbn beta iota.
  - rewrite (conn1_full H P e u from (pins_some e He) Hv Pu). unfold cut_pt. rewrite andb_comm. destruct ((1 <? esize H e) && (pin_count H P e from =? esize H e)); cbn; lia.
  - unfold km1_pt. destruct (1 <? pin_count H P e from); cbn; lia.
  - unfold soed_pt. destruct (Z.ltb_spec 1 (esize H e)); cbn [Z.b2z]; [|lia]. destruct (Z.ltb_spec 1 (pin_count H P e from)), (Z.eqb_spec (pin_count H P e from) (esize H e)); cbn [Z.b2z]; lia.
Qed.
Lemma con_ok b e : In e (inc H u) -> b <> from -> (b < pk s)%nat -> con b e = ew H e * btm (esize H e) (pin_count H P e b).
Proof.
  intros Hi Nb Hb. destruct (inc_edge e Hi) as [He Hv]. pose proof ST as (WF & C & HC). pose proof from_lt as Hf.
  unfold con, score_edge, btm, size_of, pinCountInPart. rewrite (proj2 (Nat.eqb_neq b from) Nb), (mem_connectivitySet H s e b C He Hb), (conn_eq H s e WF C He), (c_pc H s C e from He Hf), (c_pc H s C e b He Hb).
  fold (esize H e). cbn [negb andb]. pose proof (pin_count_nonneg H P e b) as Gb.
  assert (F : 0 < pin_count H P e from) by (apply pin_count_pos_iff; exists u; tauto).
  pose proof (two_pin_counts H P e from b ltac:(congruence)) as T2.
  destruct o; cbn beta iota.
  - unfold cut_bt. destruct (Z.ltb_spec 0 (pin_count H P e b)) as [B0|B0].
    + rewrite (conn1_full H P e u from (pins_some e He) Hv Pu), (conn2_pair H P e from b (pins_some e He) ltac:(congruence) F B0).
      destruct (Z.eqb_spec (pin_count H P e from) (esize H e)), (Z.ltb_spec 1 (esize H e)), (Z.eqb_spec (pin_count H P e from + pin_count H P e b) (esize H e)),
        (Z.eqb_spec (pin_count H P e from) 1), (Z.eqb_spec (pin_count H P e b) (esize H e - 1)); cbn; lia.
    + destruct (Z.ltb_spec 1 (esize H e)), (Z.eqb_spec (pin_count H P e b) (esize H e - 1)); cbn; lia.
  - unfold km1_bt. destruct (Z.ltb_spec 0 (pin_count H P e b)), (Z.leb_spec 1 (pin_count H P e b)); cbn; lia.
  - unfold soed_bt. destruct (Z.ltb_spec 1 (esize H e)); cbn [Z.b2z].
    + destruct (Z.ltb_spec 0 (pin_count H P e b)), (Z.leb_spec 1 (pin_count H P e b)), (Z.eqb_spec (pin_count H P e b) (esize H e - 1)); cbn [Z.b2z]; lia.
    + destruct (0 <? pin_count H P e b); lia.
Qed.

(** The change of the objective when the node is moved to [b]. *)
Definition change (b : nat) : Z := obj_spec o H (move P u b) - obj_spec o H P.
Lemma score_exact sc iso b : precomputeGains H o s from u = (sc, iso) -> b <> from -> (b < pk s)%nat -> iso - agg b sc = change b.
Proof.
  intros E Nb Hb. destruct (pre_spec sc iso E) as (-> & A & _). rewrite A.
  pose proof ST as (WF & C & HC).
  rewrite (sumZ_ext (iso_edge H o s from) (fun e => ew H e * ptm (esize H e) (pin_count H P e (blk P u)))) by (intros e He; rewrite (blk_some P u from Pu); apply iso_edge_ok; exact He).
  rewrite (sumZ_ext (con b) (fun e => ew H e * btm (esize H e) (pin_count H P e b))) by (intros e He; apply con_ok; assumption).
  assert (Nb' : from <> b) by congruence. unfold change, ptm, btm. destruct o; cbn [obj_spec].
  - pose proof (cut_gain_objective H (pk s) P u from b WF Hu Pu Nb' Hb HC) as X. unfold ben_of, pen_of in X. lia.
  - pose proof (km1_gain_objective H (pk s) P u from b WF Hu Pu Nb' Hb HC) as X. unfold ben_of, pen_of in X. lia.
  - pose proof (soed_gain_objective H (pk s) P u from b WF Hu Pu Nb' Hb HC) as X. unfold ben_of, pen_of in X. lia.
Qed.
Lemma agg_nodup sc b x : NoDup (map fst sc) -> In (b, x) sc -> agg b sc = x.
Proof.
  unfold agg. induction sc as [|[c y] sc IH]; cbn [map fst sumZ snd]; intros N I; [destruct I|]. inversion N; subst. destruct I as [I|I].
  - injection I as -> ->. rewrite Nat.eqb_refl, sumZ_zero; [lia|]. intros [d z] Hd. cbn [fst snd]. destruct (Nat.eqb_spec d b) as [->|]; [|reflexivity].
    exfalso. apply H2. apply in_map_iff. exists (b, z). tauto.
  - rewrite (IH H3 I). destruct (Nat.eqb_spec c b) as [->|]; [|reflexivity]. exfalso. apply H2. apply in_map_iff. exists (b, x). tauto.
Qed.
Lemma agg_absent sc b : ~ In b (map fst sc) -> agg b sc = 0.
Proof.
  intros Nb. unfold agg. apply sumZ_zero. intros [c y] Hc. cbn [fst snd]. destruct (Nat.eqb_spec c b) as [->|]; [|reflexivity]. exfalso. apply Nb. apply in_map_iff. exists (b, y). tauto.
Qed.

(** *** The selection *)
Variables (L : nat -> Z) (no_random rebalance non_adjacent allow : bool) (coin : nat -> bool) (rnd : nat).
Definition feasible (b : nat) : Prop := (b < pk s)%nat /\ b <> from /\ (allow = true \/ partWeight s b + nw H u <= L b).
Local Notation tb := (test_block H s L no_random allow coin u).
Lemma tb_cases st to score nt : let r := tb st to score nt in
  (snd r = true /\ fst r = (to, score) /\ score <= snd st /\ (allow = true \/ partWeight s to + nw H u <= L to)) \/
  (snd r = false /\ fst r = st /\ ((allow = true \/ partWeight s to + nw H u <= L to) -> snd st <= score)).
Proof.
  unfold test_block. cbn zeta. destruct (allow || _) eqn:A.
  - assert (X : allow = true \/ partWeight s to + nw H u <= L to) by (apply orb_true_iff in A; destruct A as [A|A]; [left; exact A|right; lia]).
    clear A. rewrite andb_true_r. destruct ((score <? snd st) || _) eqn:B; cbn [fst snd]; [left|right].
    + split; [reflexivity|split; [reflexivity|split; [|exact X]]]. apply orb_true_iff in B. destruct B as [B|B]; [lia|]. apply andb_true_iff in B. destruct B as [B _]. apply andb_true_iff in B. destruct B as [B _]. lia.
    + split; [reflexivity|split; [reflexivity|intros _]]. apply orb_false_iff in B. destruct B as [B _]. lia.
  - rewrite andb_false_r. cbn [fst snd]. right. split; [reflexivity|split; [reflexivity|]]. intros X. exfalso. apply orb_false_iff in A. destruct A as [A1 A2]. destruct X as [X|X]; [congruence|lia].
Qed.
(** State of the adjacent loop: nothing found yet, or a feasible block with its exact gain that is best among those seen. *)
Lemma adj_ok sc iso g0 : forall l to g, (forall b x, In (b, x) l -> In (b, x) sc) ->
  (forall b x, In (b, x) sc -> feasible b -> iso - x = change b) -> (forall b x, In (b, x) sc -> b <> from /\ (b < pk s)%nat) ->
  ((to = from /\ g = g0) \/ (feasible to /\ g = change to /\ g <= g0)) ->
  let r := adj_loop H s L no_random allow coin u from iso l (to, g) in
  ((fst r = from /\ snd r = g0) \/ (feasible (fst r) /\ snd r = change (fst r) /\ snd r <= g0)) /\ snd r <= g /\
  (forall b x, In (b, x) l -> feasible b -> snd r <= change b).
Proof.
  induction l as [|[b x] l IH]; intros to g Sub Ex Ky I; unfold adj_loop; cbn [fold_left].
  - cbn [fst snd]. split; [exact I|]. split; [lia|]. intros b x [].
  - cbn [fst snd]. assert (Hin : In (b, x) sc) by (apply Sub; left; reflexivity). destruct (Ky b x Hin) as [Nb Hb].
    rewrite (proj2 (Nat.eqb_neq from b)) by congruence.
    pose proof (tb_cases (to, g) b (iso - x) false) as TC. cbn zeta in TC.
    destruct (tb (to, g) b (iso - x) false) as [st' bb]. cbn [fst snd] in TC.
    assert (Hs : forall r, (forall b' x', In (b', x') ((b, x) :: l) -> feasible b' -> r <= change b') <->
       ((feasible b -> r <= change b) /\ (forall b' x', In (b', x') l -> feasible b' -> r <= change b'))).
    { intros r. split; [intros X; split; [intros Fb; apply (X b x); [left; reflexivity|exact Fb]|intros b' x' Hi; apply (X b' x'); right; exact Hi]|].
      intros [X1 X2] b' x' [E|Hi]; [injection E as -> ->; exact X1|apply (X2 b' x'); exact Hi]. }
    destruct TC as [(-> & E & Le & Cap)|(-> & E & Cap)]; subst st'.
    + cbn [fst]. assert (Fb : feasible b) by (split; [exact Hb|split; [exact Nb|exact Cap]]).
      pose proof (Ex b x Hin Fb) as Eb. rewrite Eb in *.
      destruct (IH b (change b) (fun b' x' h => Sub b' x' (or_intror h)) Ex Ky) as (R1 & R2 & R3).
      { right. split; [exact Fb|split; [reflexivity|]]. destruct I as [[_ ->]|(_ & _ & G)]; lia. }
      split; [exact R1|]. split; [unfold adj_loop in R2; lia|]. apply Hs. split; [intros _; exact R2|exact R3].
    + cbn [fst]. destruct (IH to g (fun b' x' h => Sub b' x' (or_intror h)) Ex Ky I) as (R1 & R2 & R3).
      split; [exact R1|]. split; [exact R2|]. apply Hs. split; [|exact R3]. intros Fb. pose proof (Ex b x Hin Fb) as Eb. destruct Fb as (_ & _ & Fb). specialize (Cap Fb). unfold adj_loop in R2. lia.
Qed.

(** Non-adjacent blocks: every accepted block has the isolated gain. *)
Lemma nonadj_ok sc iso g0 (Gi : forall b, (b < pk s)%nat -> b <> from -> sc_contains sc b = false -> iso = change b) :
  let r := nonadj_loop H s L no_random allow coin u from iso sc (from, g0) in
  (forall b, In b (snd r) -> feasible b /\ sc_contains sc b = false /\ iso <= g0) /\
  (snd r = [] -> fst r = (from, g0) /\ forall b, feasible b -> sc_contains sc b = false -> g0 <= iso).
Proof.
  unfold nonadj_loop. set (F := fun '(st, l) to => _).
  assert (G : forall bs st l, (forall b, In b bs -> (b < pk s)%nat) -> (l = [] -> st = (from, g0)) -> (l <> [] -> snd st = iso) ->
    (forall b, In b l -> feasible b /\ sc_contains sc b = false /\ iso <= g0) ->
    let r := fold_left F bs (st, l) in
    (forall b, In b (snd r) -> feasible b /\ sc_contains sc b = false /\ iso <= g0) /\
    (snd r = [] -> fst r = (from, g0) /\ l = [] /\ forall b, In b bs -> feasible b -> sc_contains sc b = false -> g0 <= iso)).
  { induction bs as [|b bs IH]; intros st l K I0 I1 I2; cbn [fold_left]; cbn zeta.
    - cbn [fst snd]. split; [exact I2|]. intros El. split; [apply I0; exact El|split; [exact El|intros b []]].
    - unfold F at 2 4 6. destruct (negb (Nat.eqb from b) && negb (sc_contains sc b)) eqn:Cd.
      + apply andb_true_iff in Cd. destruct Cd as [C1 C2]. apply negb_true_iff in C1, C2. apply Nat.eqb_neq in C1.
        pose proof (tb_cases st b iso true) as TC. cbn zeta in TC. destruct (tb st b iso true) as [st' bb]. cbn [fst snd] in TC.
        destruct TC as [(-> & E & Le & Cap)|(-> & E & Cap)]; subst st'.
        * assert (Fb : feasible b) by (split; [apply K; left; reflexivity|split; [congruence|exact Cap]]).
          assert (Ig : iso <= g0) by (destruct l as [|c l']; [rewrite (I0 eq_refl) in Le; exact Le|apply (I2 c); left; reflexivity]).
          destruct (IH (b, iso) (l ++ [b]) (fun c h => K c (or_intror h))) as [R1 R2].
          -- intros X. destruct l; discriminate X.
          -- reflexivity.
          -- intros c Hc. apply in_app_or in Hc. destruct Hc as [Hc|[<-|[]]]; [apply I2; exact Hc|split; [exact Fb|split; [exact C2|exact Ig]]].
          -- split; [exact R1|]. intros X. destruct (R2 X) as (_ & Y & _). destruct l; discriminate Y.
        * destruct (IH st l (fun c h => K c (or_intror h)) I0 I1 I2) as [R1 R2]. split; [exact R1|]. intros X. destruct (R2 X) as (Y1 & Y2 & Y3).
          split; [exact Y1|split; [exact Y2|]]. intros c [<-|Hc] Fc Cc; [|apply (Y3 c); assumption]. destruct Fc as (_ & _ & Fc). specialize (Cap Fc). rewrite (I0 Y2) in Cap. exact Cap.
      + destruct (IH st l (fun c h => K c (or_intror h)) I0 I1 I2) as [R1 R2]. split; [exact R1|]. intros X. destruct (R2 X) as (Y1 & Y2 & Y3).
        split; [exact Y1|split; [exact Y2|]]. intros c [<-|Hc] Fc Cc; [|apply (Y3 c); assumption].
        exfalso. destruct Fc as (_ & Fc & _). rewrite Cc, andb_true_r in Cd. apply negb_false_iff, Nat.eqb_eq in Cd. congruence. }
  destruct (G (seq 0 (pk s)) (from, g0) []) as [R1 R2]; [intros b Hb; apply in_seq in Hb; lia|reflexivity|congruence|intros b []|].
  split; [exact R1|]. intros X. destruct (R2 X) as (Y1 & _ & Y3). split; [exact Y1|]. intros b Fb. apply Y3; [|exact Fb]. destruct Fb as [Fb _]. apply in_seq. lia.
Qed.

Local Notation cmg := (computeMaxGainMove H o s L no_random rebalance non_adjacent allow coin rnd from u).
Definition g_init : Z := if rebalance then MAXG else 0.
Theorem cmg_ok : let r := cmg in
  ((fst r = from /\ snd r = g_init) \/ (feasible (fst r) /\ snd r = change (fst r) /\ snd r <= g_init)) /\
  ((forall e, In e (edges H) -> 0 <= ew H e) -> (rebalance = false \/ non_adjacent = true) -> forall b, feasible b -> snd r <= change b).
Proof.
  unfold computeMaxGainMove. destruct (precomputeGains H o s from u) as [sc iso] eqn:EP. fold g_init.
  destruct (pre_spec sc iso EP) as (Ei & Ea & Nd & Ky).
  assert (Ex : forall b x, In (b, x) sc -> feasible b -> iso - x = change b).
  { intros b x Hi (Hb & Nb & _). rewrite <- (score_exact sc iso b EP Nb Hb), (agg_nodup sc b x Nd Hi). reflexivity. }
  assert (Ky' : forall b x, In (b, x) sc -> b <> from /\ (b < pk s)%nat) by (intros b x Hi; apply Ky; apply in_map_iff; exists (b, x); tauto).
  assert (Gi : forall b, (b < pk s)%nat -> b <> from -> sc_contains sc b = false -> iso = change b).
  { intros b Hb Nb Cb. rewrite <- (score_exact sc iso b EP Nb Hb), agg_absent; [lia|]. unfold sc_contains in Cb. apply mem_false. exact Cb. }
  assert (Iso : (forall e, In e (edges H) -> 0 <= ew H e) -> 0 <= iso).
  { intros W. rewrite Ei. apply sumZ_nonneg. intros e He. rewrite (iso_edge_ok e He). destruct (inc_edge e He) as [He' _]. specialize (W e He'). unfold ptm.
    apply Z.mul_nonneg_nonneg; [exact W|]. destruct o; unfold cut_pt, km1_pt, soed_pt.
    - destruct (_ && _); cbn; lia.
    - destruct (1 <? _); cbn; lia.
    - destruct (1 <? esize H e), (1 <? pin_count H P e from), (pin_count H P e from =? esize H e); cbn; lia. }
  destruct (adj_ok sc iso g_init sc from g_init (fun b x h => h) Ex Ky' (or_introl (conj eq_refl eq_refl))) as (R1 & R2 & R3).
  destruct (adj_loop H s L no_random allow coin u from iso sc (from, g_init)) as [to g]. cbn [fst snd] in *.
  assert (In_sc : forall b, sc_contains sc b = true -> exists x, In (b, x) sc).
  { intros b Cb. unfold sc_contains in Cb. apply mem_In in Cb. apply in_map_iff in Cb. destruct Cb as ([c x] & E & Hi). cbn [fst] in E. subst c. exists x. exact Hi. }
  (* blocks without a score *)
  assert (Dn : (forall e, In e (edges H) -> 0 <= ew H e) -> forall b x, In (b, x) sc -> 0 <= x).
  { intros W b x Hi. destruct (Ky' b x Hi) as [Nb Hb]. rewrite <- (agg_nodup sc b x Nd Hi), Ea. apply sumZ_nonneg. intros e He. rewrite (con_ok b e He Nb Hb). destruct (inc_edge e He) as [He' _].
    apply Z.mul_nonneg_nonneg; [apply W; exact He'|]. unfold btm. destruct o; unfold cut_bt, km1_bt, soed_bt.
    - destruct (_ && _); cbn; lia.
    - destruct (1 <=? _); cbn; lia.
    - destruct (1 <? esize H e), (1 <=? pin_count H P e b), (pin_count H P e b =? esize H e - 1); cbn; lia. }
  destruct (non_adjacent && Nat.eqb to from) eqn:NA.
  - apply andb_true_iff in NA. destruct NA as [NA1 NA2]. apply Nat.eqb_eq in NA2. subst to.
    assert (Eg : g = g_init) by (destruct R1 as [[_ E]|((_ & X & _) & _)]; [exact E|congruence]). subst g.
    destruct (nonadj_ok sc iso g_init Gi) as [S1 S2].
    destruct (nonadj_loop H s L no_random allow coin u from iso sc (from, g_init)) as [st' l]. cbn [fst snd] in *.
    destruct l as [|c l].
    + destruct (S2 eq_refl) as [-> S3]. cbn [fst snd]. split; [left; tauto|]. intros W _ b Fb.
      destruct (sc_contains sc b) eqn:Cb.
      * destruct (In_sc b Cb) as (x & Hi). exact (R3 b x Hi Fb).
      * rewrite <- (Gi b); [apply (S3 b Fb Cb)| | |exact Cb]; apply Fb.
    + set (t := nth (rnd mod length (c :: l)) (c :: l) from).
      assert (It : In t (c :: l)) by (apply nth_In; apply Nat.mod_upper_bound; discriminate).
      destruct (S1 t It) as (Ft & Ct & Le). cbn [fst snd]. split; [right; split; [exact Ft|split; [|exact Le]]|].
      * apply Gi; [apply Ft|apply Ft|exact Ct].
      * intros W _ b Fb. destruct (sc_contains sc b) eqn:Cb.
        -- destruct (In_sc b Cb) as (x & Hi). pose proof (R3 b x Hi Fb). lia.
        -- rewrite <- (Gi b); [lia| | |exact Cb]; apply Fb.
  - cbn [fst snd]. split; [exact R1|]. intros W Hm b Fb. destruct (sc_contains sc b) eqn:Cb.
    + destruct (In_sc b Cb) as (x & Hi). exact (R3 b x Hi Fb).
    + rewrite <- (Gi b); [|apply Fb|apply Fb|exact Cb]. destruct Hm as [->|Hm].
      * unfold g_init in R2. specialize (Iso W). lia.
      * subst non_adjacent. cbn [andb] in NA. apply Nat.eqb_neq in NA. destruct R1 as [[R1 _]|(F1 & E1 & _)]; [congruence|].
        (* the chosen block has a nonnegative score *)
        destruct (sc_contains sc to) eqn:Ct.
        -- destruct (In_sc to Ct) as (x & Hi). pose proof (Dn W to x Hi). pose proof (Ex to x Hi F1). lia.
        -- pose proof (Gi to (proj1 F1) (proj1 (proj2 F1)) Ct). lia.
Qed.
End One.
