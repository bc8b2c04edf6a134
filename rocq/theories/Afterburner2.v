(** Afterburner2.v - two-pin hyperedges, the parallel loop and its result. *)
From Verif Require Import Base Spec SpecLemmas PHG PHGProofs Conc ConcMore ConcRun Objective GainCache Metrics PropsA DetLP DetLPThms DetRebThms ParLoop Afterburner AfterburnerThms.

Lemma two_edge o H P e a b p q : o <> Osoed -> pins H e = [a; b] \/ pins H e = [b; a] -> P a = Some p -> P b = Some q ->
  obj_spec_edge o H P e = if Nat.eqb p q then 0 else ew H e.
Proof.
  intros NO HP Ea Eb.
  assert (C : connectivity H P e = if Nat.eqb p q then 1 else 2).
  { unfold connectivity, blocks_of. destruct HP as [-> | ->]; cbn [flat_map]; rewrite Ea, Eb; cbn [app nodup];
    destruct (Nat.eqb_spec p q) as [->|N]; destruct (in_dec Nat.eq_dec _ _) as [I|I]; cbn in I; try reflexivity; exfalso; try (destruct I as [I|[]]; congruence); apply I; left; congruence. }
  destruct o; [| |congruence]; cbn [obj_spec_edge]; unfold cut_edge, km1_edge; rewrite C; destruct (Nat.eqb p q); cbn; lia.
Qed.
Section Two.
Variables (H : hypergraph) (o : objective) (s : phg) (gt : nat -> Z * nat).
Hypothesis ST : started H s.
Hypothesis TG : forall v, In v (nodes H) -> (tg gt v < pk s)%nat.
Local Notation tg := (tg gt).
Local Notation abef := (abef gt).
Local Notation mover := (mover s gt).
Local Notation Pb := (Pbef s gt).
Local Notation De := (De H o s gt).

Definition c2 (e a b : nat) : list (nat * Z) :=
    (if mover a then
       if oeq (part s a) (part s b) then [(a, ew H e)]
       else if oeq (Some (tg a)) (part s b) then [(a, - ew H e)] else []
     else []) ++
    (if mover b then
       if oeq (part s b) (Some (tg a)) then [(b, ew H e)]
       else if Nat.eqb (tg b) (tg a) then [(b, - ew H e)] else []
     else []).
Lemma contrib2_ord e x y : pins H e = [x; y] -> x <> y -> exists a b, (pins H e = [a; b] \/ pins H e = [b; a]) /\ a <> b /\ abef a b = true /\ contrib2 H s gt e = c2 e a b.
Proof.
  intros E N. unfold contrib2, tp_scan. rewrite E. cbn [fold_left fst snd].
  assert (EQ : (gn gt y <? gn gt x) || ((gn gt x =? gn gt y) && Nat.ltb y x) = abef y x). { unfold Afterburner.abef. rewrite (Z.eqb_sym (gn gt x)). reflexivity. }
  rewrite EQ. destruct (abef y x) eqn:F.
  - exists y, x. split; [right; reflexivity|]. split; [congruence|]. split; [exact F|reflexivity].
  - exists x, y. split; [left; reflexivity|]. split; [congruence|]. split; [apply abef_total; [congruence|exact F]|reflexivity].
Qed.
Lemma two_ok e x y : o <> Osoed -> In e (edges H) -> pins H e = [x; y] -> x <> y -> forall v, csum (contrib2 H s gt e) v = if mem v (filter mover (pins H e)) then De v e else 0.
Proof.
  intros NO He EP NXY v. destruct (contrib2_ord e x y EP NXY) as (a & b & HP & NE & AB & ->). clear EP NXY x y.
  pose proof ST as (WF & C & HC).
  assert (Ia : In a (pins H e)) by (destruct HP as [-> | ->]; cbn; auto). assert (Ib : In b (pins H e)) by (destruct HP as [-> | ->]; cbn; auto).
  pose proof (wf_pins_nodes _ WF e a He Ia) as Na. pose proof (wf_pins_nodes _ WF e b He Ib) as Nb.
  destruct (HC a Na) as (fa & Ea & Ka). destruct (HC b Nb) as (fb & Eb & Kb).
  assert (BA : abef b a = false). { destruct (abef b a) eqn:X; [|reflexivity]. pose proof (abef_trans gt a b a AB X) as Y. rewrite abef_irr in Y. discriminate. }
  assert (DA : De a e = (if Nat.eqb (tg a) fb then 0 else ew H e) - (if Nat.eqb fa fb then 0 else ew H e)).
  { unfold AfterburnerThms.De. rewrite (two_edge o H (move (Pb a) a (tg a)) e a b (tg a) fb), (two_edge o H (Pb a) e a b fa fb); try assumption; try reflexivity.
    - rewrite pb_self. exact Ea.
    - unfold Pbef. rewrite BA. exact Eb.
    - unfold move. apply upd_same.
    - unfold move. rewrite upd_other by congruence. unfold Pbef. rewrite BA. exact Eb. }
  assert (DB : De b e = (if Nat.eqb (tg a) (tg b) then 0 else ew H e) - (if Nat.eqb (tg a) fb then 0 else ew H e)).
  { unfold AfterburnerThms.De. rewrite (two_edge o H (move (Pb b) b (tg b)) e a b (tg a) (tg b)), (two_edge o H (Pb b) e a b (tg a) fb); try assumption; try reflexivity.
    - unfold Pbef. rewrite AB. reflexivity.
    - rewrite pb_self. exact Eb.
    - unfold move. rewrite upd_other by congruence. unfold Pbef. rewrite AB. reflexivity.
    - unfold move. apply upd_same. }
  assert (MA : mover a = negb (Nat.eqb fa (tg a))) by (unfold Afterburner.mover; rewrite Ea; reflexivity).
  assert (MB : mover b = negb (Nat.eqb fb (tg b))) by (unfold Afterburner.mover; rewrite Eb; reflexivity).
  assert (MV : mem v (filter mover (pins H e)) = (Nat.eqb a v && mover a) || (Nat.eqb b v && mover b)).
  { apply eq_true_iff_eq. rewrite mem_In, filter_In, orb_true_iff, !andb_true_iff, !Nat.eqb_eq. destruct HP as [-> | ->]; cbn; split; intros X.
    - destruct X as [[X|[X|[]]] Y]; subst; tauto.
    - destruct X as [[X Y]|[X Y]]; subst; tauto.
    - destruct X as [[X|[X|[]]] Y]; subst; tauto.
    - destruct X as [[X Y]|[X Y]]; subst; tauto. }
  rewrite MV. unfold c2. rewrite csum_app.
  assert (SA : csum (if mover a then if oeq (part s a) (part s b) then [(a, ew H e)] else if oeq (Some (tg a)) (part s b) then [(a, - ew H e)] else [] else []) v = if Nat.eqb a v && mover a then De a e else 0).
  { rewrite DA, MA, Ea, Eb. cbn [oeq]. unfold csum. destruct (Nat.eqb_spec fa (tg a)) as [X|X]; cbn [negb andb]; [rewrite andb_false_r; reflexivity|]. rewrite andb_true_r.
    destruct (Nat.eqb_spec fa fb) as [Y|Y]; destruct (Nat.eqb_spec (tg a) fb) as [Z|Z]; try congruence; cbn [sumZ fst snd]; destruct (Nat.eqb a v); lia. }
  assert (SB : csum (if mover b then if oeq (part s b) (Some (tg a)) then [(b, ew H e)] else if Nat.eqb (tg b) (tg a) then [(b, - ew H e)] else [] else []) v = if Nat.eqb b v && mover b then De b e else 0).
  { rewrite DB, MB, Eb. cbn [oeq]. unfold csum. rewrite (Nat.eqb_sym (tg a) fb), (Nat.eqb_sym (tg a) (tg b)). destruct (Nat.eqb_spec fb (tg b)) as [X|X]; cbn [negb andb]; [rewrite andb_false_r; reflexivity|]. rewrite andb_true_r.
    destruct (Nat.eqb_spec fb (tg a)) as [Y|Y]; destruct (Nat.eqb_spec (tg b) (tg a)) as [Z|Z]; try congruence; cbn [sumZ fst snd]; destruct (Nat.eqb b v); lia. }
  rewrite SA, SB. destruct (Nat.eqb_spec a v) as [<-|Y]; cbn [andb orb].
  - destruct (Nat.eqb_spec b a); [congruence|]. cbn [andb]. rewrite orb_false_r. lia.
  - destruct (Nat.eqb_spec b v) as [<-|Y2]; cbn [andb]; lia.
Qed.
Definition exact_obj (e : nat) : Prop := o <> Osoed \/ length (pins H e) <> 2%nat.
Lemma contrib_ok e : In e (edges H) -> exact_obj e -> forall v, csum (contrib H o s gt e) v = if mem v (pins H e) then De v e else 0.
Proof.
  intros He EX v. pose proof ST as (WF & C & HC). pose proof (wf_pins_nodup _ WF e He) as ND.
  assert (G : csum (contrib H o s gt e) v = if mem v (filter mover (pins H e)) then De v e else 0).
  { unfold contrib. destruct (Nat.eqb_spec (length (pins H e)) 2) as [L|L].
    - destruct EX as [NO|NL]; [|contradiction]. destruct (pins H e) as [|x [|y [|? ?]]] eqn:EP; try discriminate. rewrite <- EP. apply two_ok with x y; [exact NO|exact He|exact EP|]. inversion ND as [|? ? X _]; subst. intros ->. apply X. left. reflexivity.
    - pose proof (NoDup_filter mover ND) as NF. destruct (sort_pins_ok gt (filter mover (pins H e)) NF) as [SS PM].
      rewrite scan_ok; [|exact ST|exact TG|exact He|exact SS| | |].
      + assert (EM : mem v (sort_pins gt (filter mover (pins H e))) = mem v (filter mover (pins H e))).
        { apply eq_true_iff_eq. rewrite !mem_In. split; apply Permutation_in; [symmetry|]; exact PM. }
        rewrite EM. reflexivity.
      + intros u Hu. apply (Permutation_in u (Permutation_sym PM)) in Hu. apply filter_In in Hu. exact Hu.
      + intros u x Hu Mu NI _. exfalso. apply NI. apply (Permutation_in u PM). apply filter_In. split; assumption.
      + intros x l' b EL Hb. rewrite (c_pc _ _ C) by assumption. apply pin_count_ext. intros u Hu. unfold Pbef. destruct (abef u x) eqn:F; [|reflexivity].
        destruct (mover u) eqn:Mu.
        * exfalso. assert (IU : In u (sort_pins gt (filter mover (pins H e)))) by (apply (Permutation_in u PM), filter_In; split; assumption).
          rewrite EL in SS, IU. inversion SS as [|? ? _ FA]; subst. rewrite Forall_forall in FA. destruct IU as [<-|IU]; [rewrite abef_irr in F; discriminate|].
          pose proof (abef_trans gt x u x (FA u IU) F) as Y. rewrite abef_irr in Y. discriminate.
        * unfold Afterburner.mover in Mu. apply negb_false_iff, oeq_spec in Mu. exact Mu. }
  rewrite G. destruct (mem v (pins H e)) eqn:M.
  - destruct (mem v (filter mover (pins H e))) eqn:MF; [reflexivity|].
    assert (NM : mover v = false). { destruct (mover v) eqn:X; [|reflexivity]. exfalso. apply Bool.not_true_iff_false in MF. apply MF. apply mem_In, filter_In. split; [apply mem_In; exact M|exact X]. }
    unfold Afterburner.mover in NM. apply negb_false_iff, oeq_spec in NM. unfold AfterburnerThms.De. rewrite (edge_ext o H (move (Pb v) v (tg v)) (Pb v)); [lia|].
    intros u _. unfold move. destruct (Nat.eq_dec u v) as [->|N]; [rewrite upd_same, pb_self; congruence|rewrite upd_other by exact N; reflexivity].
  - destruct (mem v (filter mover (pins H e))) eqn:MF; [|reflexivity]. apply mem_In, filter_In in MF. apply Bool.not_true_iff_false in M. exfalso. apply M, mem_In, MF.
Qed.
End Two.
