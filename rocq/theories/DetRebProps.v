(** DetRebProps.v - the deterministic rebalancer: property C67. *)
From Coq Require Import FunctionalExtensionality.
From Verif Require Import Base Spec SpecLemmas PHG PHGProofs Conc Objective GainCache Metrics PropsA Scan WfCheck DetLP DetLPApply DetLPThms DetLPTotal DetReb DetRebThms DetLPProps.

(** What the rebalancer is given: non-negative node weights with a total that fits into 32 bits and ratings of existing blocks that
    are not worse than the gain of moving the node to a non-adjacent block. *)
Record reb_input (H : hypergraph) (k : nat) (scores : partition -> nat -> list (nat * Z)) (iso : partition -> nat -> Z) : Prop := {
  ri_nw : forall v, 0 <= nw H v;
  ri_total : total_weight H <= MAXW;
  ri_k : forall P u b g, In (b, g) (scores P u) -> (b < k)%nat;
  ri_iso : forall P u b g, In (b, g) (scores P u) -> g <= iso P u
}.
Lemma overl_balanced H k L s : ready H k s -> (overl k L (pws k s) = 0%nat <-> balanced H k L (part s)).
Proof.
  intros RD. unfold overl, balanced. split.
  - intros E b Hb. apply length_zero_iff_nil in E. destruct (Z.ltb_spec (L b) (pws k s b)) as [X|X]; [|rewrite (pws_eq' H k s b RD Hb) in X; exact X].
    exfalso. assert (I : In b (filter (fun b => L b <? pws k s b) (seq 0 k))) by (apply filter_In; split; [apply in_seq; lia|apply Z.ltb_lt; exact X]). rewrite E in I. destruct I.
  - intros B. apply length_zero_iff_nil. destruct (filter _ (seq 0 k)) as [|b l] eqn:E; [reflexivity|]. exfalso.
    assert (I : In b (filter (fun b => L b <? pws k s b) (seq 0 k))) by (rewrite E; left; reflexivity). apply filter_In in I. destruct I as [I X]. apply in_seq in I. apply Z.ltb_lt in X.
    rewrite (pws_eq' H k s b RD) in X by lia. specialize (B b ltac:(lia)). lia.
Qed.
Section Props.
Variables (H : hypergraph) (k : nat) (L dead : nat -> Z) (fixed : nat -> bool).
Variables (may : (nat -> Z) -> nat -> Z -> bool) (prio : Z -> Z -> Z).
Variables (scores : partition -> nat -> list (nat * Z)) (iso : partition -> nat -> Z).
Variable o : objective.
Hypothesis IN : reb_input H k scores iso.
Local Notation rround := (rround H k L dead fixed may prio scores iso o).
Local Notation reb := (reb H k L dead fixed may prio scores iso o).
Local Notation rd := (ready H k).
Lemma reb_ok : forall n hv s s' g hv' r, reb n hv s s' g hv' r -> rd s ->
  rd s' /\ g = obj_spec o H (part s) - obj_spec o H (part s') /\ (forall v, fixed v = true -> part s' v = part s v) /\ (r <= n)%nat /\ (balanced H k L (part s') \/ r = n) /\
  (balanced H k L (part s) -> part s' = part s /\ g = 0 /\ r = 0%nat).
Proof.
  destruct IN as [Wn Wt SK SI]. induction 1 as [n hv s E|hv s|n hv s s1 g1 hv1 s2 g2 hv2 r E R X IH]; intros RD.
  - split; [exact RD|]. split; [lia|]. split; [reflexivity|]. split; [lia|]. split; [left; apply (overl_balanced H k L s RD); exact E|auto].
  - split; [exact RD|]. split; [lia|]. split; [reflexivity|]. split; [lia|]. split; [right; reflexivity|auto].
  - destruct (round_ok H k L dead fixed may prio scores iso o Wn Wt SK hv s s1 g1 hv1 RD R) as (R1 & G1 & M & _). destruct (IH R1) as (R2 & G2 & F & LE & B & _).
    split; [exact R2|]. split; [lia|]. split; [|split; [lia|split; [destruct B; [left; assumption|right; lia]|]]].
    + intros v Hv. rewrite F by exact Hv. assert (D : {part s1 v = part s v} + {part s1 v <> part s v}) by (decide equality; apply Nat.eq_dec). destruct D as [Y|Y]; [exact Y|]. destruct (M v Y) as (_ & X1 & _). congruence.
    + intros BL. apply (overl_balanced H k L s RD) in BL. contradiction.
Qed.
(** C67: the call always ends, its reported change of the objective is exact, fixed vertices do not move, a balanced partition is not
    touched, and it stops early only if the partition is balanced. *)
Theorem C67_rebalancer : forall d hv s s' g hv' r, started H s -> pk s = k -> reb (max_rounds d) hv s s' g hv' r ->
  started H s' /\ pk s' = k /\ obj_spec o H (part s') = obj_spec o H (part s) - g /\ (forall v, fixed v = true -> part s' v = part s v) /\
  (r <= 30)%nat /\ (balanced H k L (part s') \/ r = max_rounds d) /\ (balanced H k L (part s) -> part s' = part s /\ g = 0).
Proof.
  intros d hv s s' g hv' r ST K R. destruct (reb_ok _ _ _ _ _ _ _ R (conj ST K)) as ([S' K'] & G & F & LE & B & T). split; [exact S'|]. split; [exact K'|]. split; [lia|]. split; [exact F|].
  split; [unfold max_rounds in LE; destruct (Nat.eqb d 0); lia|]. split; [exact B|]. intros X. destruct (T X) as (T1 & T2 & _). auto.
Qed.
Theorem C67_completes : forall d hv s, started H s -> pk s = k -> exists s' g hv' r, reb (max_rounds d) hv s s' g hv' r.
Proof. intros d hv s ST K. destruct IN as [Wn Wt SK SI]. apply (reb_total H k L dead fixed may prio scores iso o Wn Wt SK (max_rounds d) hv s (conj ST K)). Qed.
(** Whatever the schedule, the result is the one of the sequential function. *)
Theorem C67_deterministic : forall n hv s1 s2 s1' s2' g1 g2 hv1 hv2 r1 r2,
  started H s1 -> started H s2 -> pk s1 = k -> pk s2 = k -> part s1 = part s2 ->
  reb n hv s1 s1' g1 hv1 r1 -> reb n hv s2 s2' g2 hv2 r2 -> part s1' = part s2' /\ g1 = g2 /\ hv1 = hv2 /\ r1 = r2.
Proof.
  pose proof IN as [Wn Wt SK SI]. intros n hv s1 s2 s1' s2' g1 g2 hv1 hv2 r1 r2 ST1 ST2 K1 K2 EP R1.
  assert (A : rd s1) by (split; assumption). assert (B : rd s2) by (split; assumption). clear ST1 ST2 K1 K2. revert s2 s2' g2 hv2 r2 A B EP.
  induction R1 as [n hv s E|hv s|n hv s s1 g1 hv1 s1' g1' hv1' r1 E R X IH]; intros t t' h hw q A B EP Y.
  - inversion Y; subst; [auto|auto|]. exfalso. rewrite (pws_part' H k s t A B EP) in E. contradiction.
  - inversion Y; subst; auto.
  - inversion Y as [? ? ? E2|? ? |? ? ? t1 h1 hw1 ? h2 ? q2 E2 R2 Y2]; subst; [exfalso; rewrite (pws_part' H k s t' A B EP) in E; contradiction|].
    destruct (round_ok H k L dead fixed may prio scores iso o Wn Wt SK hv s s1 g1 hv1 A R) as (A1 & G1 & _).
    destruct (round_ok H k L dead fixed may prio scores iso o Wn Wt SK hv t t1 h1 hw1 B R2) as (B1 & H1 & _).
    pose proof (round_fun_ok H k L dead fixed may prio scores iso o Wn Wt SK hv s s1 g1 hv1 A R) as F1. pose proof (round_fun_ok H k L dead fixed may prio scores iso o Wn Wt SK hv t t1 h1 hw1 B R2) as F2.
    rewrite EP, <- F2 in F1. assert (E3 : part s1 = part t1) by congruence. assert (E4 : hv1 = hw1) by congruence. subst hw1.
    destruct (IH t1 t' h2 hw q2 A1 B1 E3 Y2) as (Z1 & Z2 & Z3 & Z4). split; [exact Z1|]. split; [|split; [exact Z3|congruence]]. rewrite Z2. f_equal. rewrite G1, H1, EP, E3. reflexivity.
Qed.
Theorem C67_sequential : forall n hv s s' g hv' r, started H s -> pk s = k -> reb n hv s s' g hv' r ->
  part s' = reb_fun H k L dead fixed may prio scores iso n hv (part s).
Proof. intros n hv s s' g hv' r ST K R. destruct IN as [Wn Wt SK SI]. apply (reb_fun_ok H k L dead fixed may prio scores iso o Wn Wt SK _ _ _ _ _ _ _ R (conj ST K)). Qed.
(** One round: nodes leave only overloaded blocks and go only to blocks that could take them; an overloaded block does not become
    heavier, and if it remains overloaded, all its candidates have left it.  If its heavy nodes were not excluded, then no block
    (outside its dead zone) could have taken a node that stays. *)
Theorem C67_round : forall hv s s' g hv', started H s -> pk s = k -> rround hv s s' g hv' ->
  (forall v, part s' v <> part s v -> fixed v = false /\ exists b t, part s v = Some b /\ part s' v = Some t /\ (b < k)%nat /\ (t < k)%nat /\
      L b < block_weight H (part s) b /\ block_weight H (part s) t + nw H v <= L t) /\
  (forall b, (b < k)%nat -> L b < block_weight H (part s) b -> block_weight H (part s') b <= block_weight H (part s) b) /\
  (forall b, (b < k)%nat -> L b < block_weight H (part s) b -> L b < block_weight H (part s') b -> hv' b = true) /\
  (forall b v t, (b < k)%nat -> L b < block_weight H (part s) b -> L b < block_weight H (part s') b -> hv b = true ->
      In v (nodes H) -> part s v = Some b -> part s' v = Some b -> fixed v = false -> (t < k)%nat ->
      dead t <= block_weight H (part s) t \/ L t < block_weight H (part s) t + nw H v).
Proof.
  destruct IN as [Wn Wt SK SI]. intros hv s s' g hv' ST K R. pose proof (conj ST K : rd s) as RD.
  destruct (round_ok H k L dead fixed may prio scores iso o Wn Wt SK hv s s' g hv' RD R) as (_ & _ & M & OV).
  split; [|split; [|split]].
  - intros v X. destruct (M v X) as (_ & F & b & t & A1 & A2 & A3 & A4 & A5 & A6). split; [exact F|]. exists b, t. auto 10.
  - intros b Hb O. apply (OV b Hb O).
  - intros b Hb O O'. destruct (OV b Hb O) as [_ [[X _]|[X _]]]; [lia|exact X].
  - intros b v t Hb O O' HV Hv P1 P2 Fx Ht. destruct (OV b Hb O) as [_ [[X _]|[_ X]]]; [lia|].
    destruct (Z_le_gt_dec (dead t) (block_weight H (part s) t)) as [D|D]; [left; exact D|]. destruct (Z_lt_le_dec (L t) (block_weight H (part s) t + nw H v)) as [D2|D2]; [right; exact D2|]. exfalso.
    assert (V : valid_target L dead (pws k s) t (nw H v) = true). { unfold valid_target. rewrite (pws_eq' H k s t RD Ht). apply andb_true_iff. split; [apply Z.ltb_lt; lia|apply Z.leb_le; exact D2]. }
    assert (TG : exists x, target H k L dead scores iso (pws k s) (part s) v = Some x).
    { unfold target. destruct (pick H L dead scores iso (pws k s) (part s) v) as [g0 [t0|]] eqn:E; [eexists; reflexivity|].
      destruct (find _ (cyclic k v)) as [t0|] eqn:F; [eexists; reflexivity|]. exfalso.
      assert (NS : ~ In t (map fst (scores (part s) v))).
      { intros I. apply in_map_iff in I. destruct I as ([t1 g1] & E1 & I). cbn in E1. subst t1. revert E. unfold pick. set (f := fun best en => _).
        assert (Y : forall l acc, (fst acc <= iso (part s) v /\ snd acc = None -> fst acc = iso (part s) v) -> (forall en, In en l -> snd en <= iso (part s) v) ->
                  (In (t, g1) l \/ snd acc <> None) -> snd (fold_left f l acc) <> None).
        { induction l as [|en l IH]; intros acc HA HL [[]|X0]; try exact X0. 
          - cbn [fold_left]. subst en. apply IH; [| |right]. 
            + unfold f. cbn [fst snd]. rewrite V, andb_true_r. destruct (Z.leb_spec g1 (fst acc)); cbn [fst snd]; [intros [_ Q]; discriminate|]. apply HA.
            + intros; apply HL; right; assumption.
            + unfold f. cbn [fst snd]. rewrite V, andb_true_r. destruct (Z.leb_spec g1 (fst acc)) as [Q|Q]; cbn [snd]; [discriminate|].
              destruct (snd acc) eqn:Es; [discriminate|]. exfalso. pose proof (HL (t, g1) (or_introl eq_refl)) as Q2. cbn in Q2. assert (fst acc = iso (part s) v) by (apply HA; split; [lia|reflexivity]). lia.
          - cbn [fold_left]. apply IH; [| |left; assumption].
            + unfold f. destruct ((snd en <=? fst acc) && valid_target L dead (pws k s) (fst en) (nw H v)); cbn [fst snd]; [intros [_ Q]; discriminate|exact HA].
            + intros; apply HL; right; assumption.
          - cbn [fold_left]. apply IH; [| |right].
            + unfold f. destruct ((snd en <=? fst acc) && valid_target L dead (pws k s) (fst en) (nw H v)); cbn [fst snd]; [intros [_ Q]; discriminate|exact HA].
            + intros; apply HL; right; assumption.
            + unfold f. destruct ((snd en <=? fst acc) && valid_target L dead (pws k s) (fst en) (nw H v)); cbn [fst snd]; [discriminate|exact X0]. }
        intros E. apply (Y (scores (part s) v) (iso (part s) v, None)); [reflexivity|intros [b' g'] I'; apply (SI _ _ _ _ I')|left; exact I|rewrite E; reflexivity]. }
      assert (IC : In t (cyclic k v)).
      { unfold cyclic. apply in_map_iff. pose proof (Nat.mod_upper_bound v k ltac:(lia)) as MB. set (x := Nat.modulo v k) in *.
        destruct (Nat.le_gt_cases x t) as [Q|Q].
        - exists (t - x)%nat. split; [replace (x + (t - x))%nat with t by lia; apply Nat.mod_small; exact Ht|apply in_seq; lia].
        - exists (k - x + t)%nat. split; [|apply in_seq; lia]. replace (x + (k - x + t))%nat with (t + 1 * k)%nat by lia. rewrite Nat.mod_add by lia. apply Nat.mod_small. exact Ht. }
      pose proof (List.find_none _ _ F t IC) as Q. cbn beta in Q. rewrite V in Q. cbn [andb] in Q. apply negb_false_iff in Q. apply NS. apply mem_In. exact Q. }
    destruct TG as [[t0 g0] TG]. assert (NE : t0 <> b). { intros ->. destruct (target_spec H k L dead fixed may prio scores iso SK _ _ _ _ _ TG) as [_ V0]. unfold valid_target in V0. apply andb_true_iff in V0. destruct V0 as [_ V0]. apply Z.leb_le in V0. rewrite (pws_eq' H k s b RD Hb) in V0. pose proof (Wn v). lia. }
    assert (IC : In (mkR v b t0 (prio g0 (nw H v))) (rcand H k L dead fixed may prio scores iso (pws k s) hv (part s) v)).
    { unfold rcand. rewrite P1, HV, orb_true_r, Fx, TG. cbn [negb]. rewrite !andb_true_r. rewrite (pws_eq' H k s b RD Hb). destruct (Z.ltb_spec 0 (block_weight H (part s) b - L b)); [|lia].
      destruct (Nat.eqb_spec b t0); [congruence|left; reflexivity]. }
    specialize (X v _ Hv P1 IC). cbn [rt] in X. congruence.
Qed.
End Props.

(** *** Concrete instances *)
(** Five nodes without hyperedges in three blocks of limit 6: two blocks are overloaded by 1, and both send a node of weight 3 to the
    third block, which becomes overloaded by 3; from then on no block can take a node, the remaining rounds change nothing. *)
Definition rH : hypergraph := {| nodes := seq 0 5; edges := []; pins := fun _ => []; inc := fun _ => []; nw := fun v => nth v [3;4;3;4;3] 1; ew := fun _ => 1 |}.
Definition rP : partition := fun v => nth v [Some 0;Some 0;Some 1;Some 1;Some 2]%nat None.
Definition rsc : partition -> nat -> list (nat * Z) := fun _ _ => [].
Lemma r_input : reb_input rH 3 rsc (fun _ _ => 0).
Proof. constructor; [|vm_compute; discriminate|intros P u b g []|intros P u b g []]. intros v. do 5 (destruct v as [|v]; [cbn; lia|]). destruct v; cbn; lia. Qed.
Lemma r_started : started rH (state_of rH 3 rP).
Proof.
  apply state_of_started; [apply wf_hgb_sound; vm_compute; reflexivity| |].
  - intros v b. unfold rP. do 5 (destruct v as [|v]; [cbn; intros E; inversion E; lia|]). cbn. destruct v; discriminate.
  - intros v Hv. cbn in Hv. destruct Hv as [<-|[<-|[<-|[<-|[<-|[]]]]]]; cbn; eexists; (split; [reflexivity|lia]).
Qed.
Theorem C67_refuted_worse : exists H k L dead fixed may prio scores iso s s' g hv' r, reb_input H k scores iso /\ started H s /\ pk s = k /\
  reb H k L dead fixed may prio scores iso Okm1 (max_rounds 0) (fun _ => false) s s' g hv' r /\
  (forall b, (b < k)%nat -> block_weight H (part s) b - L b <= 1) /\ exists b, (b < k)%nat /\ block_weight H (part s) b <= L b /\ block_weight H (part s') b - L b = 3.
Proof.
  exists rH, 3%nat, (fun _ => 6), (fun _ => 6), (fun _ => false), (fun _ _ _ => true), (fun g _ => g), rsc, (fun _ _ => 0), (state_of rH 3 rP).
  destruct (C67_completes rH 3 (fun _ => 6) (fun _ => 6) (fun _ => false) (fun _ _ _ => true) (fun g _ => g) rsc (fun _ _ => 0) Okm1 r_input 0 (fun _ => false) _ r_started eq_refl) as (s' & g & hv' & r & R).
  exists s', g, hv', r. split; [exact r_input|]. split; [exact r_started|]. split; [reflexivity|]. split; [exact R|]. split.
  - intros b Hb. destruct b as [|[|[|b]]]; [vm_compute; discriminate..|lia].
  - exists 2%nat. split; [lia|]. split; [vm_compute; discriminate|].
    rewrite (C67_sequential rH 3 (fun _ => 6) (fun _ => 6) (fun _ => false) (fun _ _ _ => true) (fun g _ => g) rsc (fun _ _ => 0) Okm1 r_input _ _ _ _ _ _ _ r_started eq_refl R). vm_compute. reflexivity.
Qed.
(** The same hypergraph with limits 8, 6, 8: one round repairs the partition. *)
Theorem C67_example : exists s' g hv' r, 
  reb rH 3 (fun b => if Nat.eqb b 1 then 6 else 8) (fun _ => 6) (fun _ => false) (fun _ _ _ => true) (fun g _ => g) rsc (fun _ _ => 0) Okm1 (max_rounds 0) (fun _ => false) (state_of rH 3 rP) s' g hv' r /\
  ~ balanced rH 3 (fun b => if Nat.eqb b 1 then 6 else 8) rP /\ balanced rH 3 (fun b => if Nat.eqb b 1 then 6 else 8) (part s').
Proof.
  destruct (C67_completes rH 3 (fun b => if Nat.eqb b 1 then 6 else 8) (fun _ => 6) (fun _ => false) (fun _ _ _ => true) (fun g _ => g) rsc (fun _ _ => 0) Okm1 r_input 0 (fun _ => false) _ r_started eq_refl) as (s' & g & hv' & r & R).
  exists s', g, hv', r. split; [exact R|]. split; [intros B; specialize (B 1%nat ltac:(lia)); vm_compute in B; apply B; reflexivity|].
  rewrite (C67_sequential rH 3 (fun b => if Nat.eqb b 1 then 6 else 8) (fun _ => 6) (fun _ => false) (fun _ _ _ => true) (fun g _ => g) rsc (fun _ _ => 0) Okm1 r_input _ _ _ _ _ _ _ r_started eq_refl R).
  intros b Hb. destruct b as [|[|[|b]]]; [vm_compute; discriminate..|lia].
Qed.
