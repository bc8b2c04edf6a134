(** AfterburnerThms.v - the afterburner computes exact gains, whatever the schedule. *)
From Verif Require Import Base Spec SpecLemmas PHG PHGProofs Conc ConcMore ConcRun Objective GainCache Metrics PropsA DetLP DetLPThms DetRebThms ParLoop Afterburner.

Lemma gain_edge o H k P u from to e : NoDup (pins H e) -> In u (pins H e) -> P u = Some from -> from <> to -> (to < k)%nat -> pins_assigned H P k e ->
  gain_of o (mkSync e from to (ew H e) (esize H e) (pin_count H P e from - 1) (pin_count H P e to + 1)) = obj_spec_edge o H (move P u to) e - obj_spec_edge o H P e.
Proof. intros. destruct o; cbn [gain_of obj_spec_edge]; [eapply cut_edge_gain|eapply km1_edge_gain|eapply soed_edge_gain]; eassumption. Qed.
Lemma edge_ext o H P Q e : (forall v, In v (pins H e) -> P v = Q v) -> obj_spec_edge o H P e = obj_spec_edge o H Q e.
Proof. intros. destruct o; cbn [obj_spec_edge]; [apply cut_edge_ext|apply km1_edge_ext|apply soed_edge_ext]; assumption. Qed.
Lemma obj_sum o H P : obj_spec o H P = sumZ (obj_spec_edge o H P) (edges H).
Proof. destruct o; reflexivity. Qed.

Section Edge.
Variables (H : hypergraph) (o : objective) (s : phg) (gt : nat -> Z * nat).
Hypothesis ST : started H s.
Hypothesis TG : forall v, In v (nodes H) -> (tg gt v < pk s)%nat.
Local Notation tg := (tg gt).
Local Notation abef := (abef gt).
Local Notation mover := (mover s gt).
Local Notation Pb := (Pbef s gt).
Local Notation R := (fun u v => abef u v = true).
(** The exact change of hyperedge e when v moves after all nodes before it. *)
Definition De (v e : nat) : Z := obj_spec_edge o H (move (Pb v) v (tg v)) e - obj_spec_edge o H (Pb v) e.

Lemma pb_assigned v e : In e (edges H) -> pins_assigned H (Pb v) (pk s) e.
Proof.
  intros He u Hu. pose proof ST as (WF & C & HC). pose proof (wf_pins_nodes _ WF e u He Hu) as Hn. unfold Pbef. destruct (abef u v); [exists (tg u); split; [reflexivity|apply TG; exact Hn]|].
  apply HC. exact Hn.
Qed.
Lemma pb_self v : Pb v v = part s v.
Proof. unfold Pbef. rewrite abef_irr. reflexivity. Qed.
Lemma scan_ok e : In e (edges H) -> forall l pcs, StronglySorted R l -> (forall u, In u l -> In u (pins H e) /\ mover u = true) ->
  (forall u x, In u (pins H e) -> mover u = true -> ~ In u l -> In x l -> abef u x = true) ->
  (forall x l' b, l = x :: l' -> (b < pk s)%nat -> pcs b = pin_count H (Pb x) e b) ->
  forall v, csum (scan H o s gt e pcs l) v = if mem v l then De v e else 0.
Proof.
  intros He. pose proof ST as (WF & C & HC). pose proof (wf_pins_nodup _ WF e He) as ND. induction l as [|x l IH]; intros pcs SS IN CL PC v; [reflexivity|].
  inversion SS as [|? ? SS' F]; subst. rewrite Forall_forall in F. destruct (IN x (or_introl eq_refl)) as [Hx Mx]. pose proof (wf_pins_nodes _ WF e x He Hx) as Nx.
  destruct (HC x Nx) as (from & Ex & Kf). cbn [scan]. rewrite Ex. apply mover_spec in Mx. rewrite Ex in Mx. assert (NE : from <> tg x) by congruence. pose proof (TG x Nx) as Kt.
  set (pf := pcs from - 1). set (pcs1 := upd pcs from pf). set (pt := pcs1 (tg x) + 1). set (pcs2 := upd pcs1 (tg x) pt).
  assert (E1 : pf = pin_count H (Pb x) e from - 1) by (unfold pf; rewrite (PC x l from eq_refl Kf); reflexivity).
  assert (E2 : pt = pin_count H (Pb x) e (tg x) + 1). { unfold pt, pcs1. rewrite upd_other by congruence. rewrite (PC x l (tg x) eq_refl Kt). reflexivity. }
  assert (G : gain_of o (mkSync e from (tg x) (ew H e) (esize H e) pf pt) = De x e).
  { rewrite E1, E2. unfold De. apply gain_edge with (k := pk s); [exact ND|exact Hx|rewrite pb_self; exact Ex|exact NE|exact Kt|apply pb_assigned; exact He]. }
  rewrite G. rewrite csum_app.
  assert (HD : csum (if De x e =? 0 then [] else [(x, De x e)]) v = if Nat.eqb x v then De x e else 0).
  { destruct (Z.eqb_spec (De x e) 0) as [Z0|Z0]; unfold csum; cbn [sumZ fst snd]; [rewrite Z0; destruct (Nat.eqb x v); reflexivity|lia]. }
  rewrite HD.
  assert (NX : ~ In x l). { intros X. pose proof (F x X) as Y. cbn in Y. rewrite abef_irr in Y. discriminate. }
  rewrite IH.
  - cbn [mem existsb]. rewrite (Nat.eqb_sym v x). destruct (Nat.eqb_spec x v) as [<-|Nv]; cbn [orb].
    + fold (mem x l). destruct (mem x l) eqn:M; [apply mem_In in M; contradiction|lia].
    + fold (mem v l). lia.
  - exact SS'.
  - intros u Hu. apply IN. right. exact Hu.
  - intros u y Hu Mu Nu Hy. destruct (Nat.eq_dec u x) as [->|Ne]; [apply (F y Hy)|]. apply CL; [exact Hu|exact Mu| |right; exact Hy]. intros [X|X]; [congruence|contradiction].
  - intros y l' b -> Hb. destruct (IN y (or_intror (or_introl eq_refl))) as [Hy My].
    assert (EX : pin_count H (Pb y) e b = pin_count H (move (Pb x) x (tg x)) e b).
    { apply pin_count_ext. intros u Hu. unfold move. destruct (Nat.eq_dec u x) as [->|Nu].
      - rewrite upd_same. unfold Pbef. rewrite (F y (or_introl eq_refl)). reflexivity.
      - rewrite upd_other by congruence. unfold Pbef. destruct (mover u) eqn:Mu.
        + destruct (in_dec Nat.eq_dec u (y :: l')) as [I|I].
          * assert (X1 : abef u x = false). { destruct (abef u x) eqn:X; [|reflexivity]. exfalso. pose proof (abef_trans gt x u x (F u I) X) as Y. rewrite abef_irr in Y. discriminate. }
            assert (X2 : abef u y = false). { destruct (abef u y) eqn:X; [|reflexivity]. exfalso. destruct I as [<-|I]; [rewrite abef_irr in X; discriminate|].
              inversion SS' as [|? ? _ F2]; subst. rewrite Forall_forall in F2. pose proof (abef_trans gt y u y (F2 u I) X) as Y. rewrite abef_irr in Y. discriminate. }
            rewrite X1, X2. reflexivity.
          * rewrite (CL u x Hu Mu), (CL u y Hu Mu); [reflexivity| | | |]; try (right; left; reflexivity); try (left; reflexivity); intros [X|X]; congruence || contradiction.
        + assert (EQ : part s u = Some (tg u)). { unfold Afterburner.mover in Mu. apply negb_false_iff, oeq_spec in Mu. exact Mu. } rewrite EQ. destruct (abef u y), (abef u x); reflexivity. }
    rewrite EX, pin_count_move by exact ND. rewrite (proj2 (mem_In x (pins H e)) Hx). unfold in_block. rewrite pb_self, Ex.
    unfold pcs2. destruct (Nat.eq_dec b (tg x)) as [->|Nb].
    + rewrite upd_same, E2, Nat.eqb_refl. destruct (Nat.eqb_spec from (tg x)); [contradiction|]. cbn [Z.b2z]. lia.
    + rewrite upd_other by exact Nb. destruct (Nat.eqb_spec (tg x) b) as [X|_]; [congruence|]. unfold pcs1. destruct (Nat.eq_dec b from) as [->|Nf].
      * rewrite upd_same, E1, Nat.eqb_refl. cbn [Z.b2z]. lia.
      * rewrite upd_other by exact Nf. rewrite (PC x (y :: l') b eq_refl Hb). destruct (Nat.eqb_spec from b); [congruence|]. cbn [Z.b2z]. lia.
Qed.
End Edge.
