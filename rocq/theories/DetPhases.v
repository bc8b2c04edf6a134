(** DetPhases.v - the loops of the deterministic coarsener (DetCoarse.v) do not depend on the schedule: closed forms of their effects. *)
From Coq Require Import FunctionalExtensionality.
From Verif Require Import Base Spec ParLoop DetCoarse.
Set Default Proof Using "All".

Lemma dc_eq c c' : clu c = clu c' -> cwt c = cwt c' -> opp c = opp c' -> prop c = prop c' -> hvy c = hvy c' -> fixl c = fixl c' ->
  cnt c = cnt c' -> num c = num c' -> oob c = oob c' -> c = c'.
Proof. destruct c, c'; cbn. intros. subst. reflexivity. Qed.
Ltac fx := apply functional_extensionality; let y := fresh "y" in intros y.
Ltac eqbs := repeat match goal with |- context[Nat.eqb ?a ?b] => destruct (Nat.eqb_spec a b) end.
Ltac dceq := apply dc_eq; cbn; try reflexivity; try (fx; unfold push, upd; eqbs; subst; try congruence; try lia; try reflexivity; try (match goal with E : ?a = ?b :> nat |- _ => solve [rewrite E; lia | rewrite E; congruence] end)); try lia.

Section Phases.
Variables (H : hypergraph) (p : dparams).
Local Notation w := (nw H).

(** ** Loop 1 *)
Definition tgt1 (cl : nat -> nat) (cw : nat -> Z) (fx : dfix) (u : nat) : nat :=
  if (cw u =? w u) && enabled p u then pref H p cl cw fx u else u.
Definition c1 (rng : list nat) (c : dcore) (fx : dfix) : dcore :=
  let T := tgt1 (clu c) (cwt c) fx in
  set_opp (set_prop c (fun x => if mem x rng && negb (Nat.eqb (T x) x) then T x else prop c x))
    (fun t => opp c t + sumZ (fun u => if Nat.eqb (T u) u then 0 else if Nat.eqb (T u) t then w u else 0) rng).
Section L1.
Variables (cl : nat -> nat) (cw : nat -> Z) (fx : dfix).
Local Notation T := (tgt1 cl cw fx).
Definition own1 (l : l1) : nat := match l with P0 u => u | P1 u _ => u | PD u => u end.
Definition rest1 (l : l1) (c : dcore) : dcore :=
  match l with
  | P0 u => if Nat.eqb (T u) u then c else set_opp (set_prop c (upd (prop c) u (T u))) (upd (opp c) (T u) (opp c (T u) + w u))
  | P1 u t => set_opp c (upd (opp c) t (opp c t + w u))
  | PD _ => c
  end.
Definition inv1 (ls : list l1) (s : dst) : Prop :=
  NoDup (map own1 ls) /\ clu (fst s) = cl /\ cwt (fst s) = cw /\ snd s = fx.
Lemma own_eq {L} (own : L -> nat) a l l' b : own l' = own l -> map own (a ++ l' :: b) = map own (a ++ l :: b).
Proof using. intros E. rewrite !map_app. cbn. rewrite E. reflexivity. Qed.
Lemma own_neq {L} (own : L -> nat) a l b m c : NoDup (map own (a ++ l :: b ++ m :: c)) -> own l <> own m.
Proof using.
  intros ND E. rewrite map_app in ND. cbn [map] in ND. rewrite map_app in ND. apply NoDup_remove_2 in ND. apply ND.
  apply in_or_app. right. apply in_or_app. right. cbn [map]. rewrite E. left. reflexivity.
Qed.
Lemma step1_ok a l b s l' s' : inv1 (a ++ l :: b) s -> step1 H p l s = Some (l', s') ->
  inv1 (a ++ l' :: b) s' /\ rest1 l (fst s) = rest1 l' (fst s').
Proof.
  intros [ND [Ec [Ew Ef]]] E. destruct s as [c f]. cbn in Ec, Ew, Ef. subst f. destruct l as [u|u t|u]; cbn in E; rewrite ?Ec, ?Ew in E.
  - destruct ((cw u =? w u) && enabled p u) eqn:G.
    + destruct (Nat.eqb_spec (pref H p cl cw fx u) u) as [Eq|Ne]; inversion E; subst l' s'; cbn.
      * split; [split; [rewrite (own_eq own1 a (P0 u)) by reflexivity; exact ND|repeat split; assumption]|].
        unfold tgt1. rewrite G, Eq, Nat.eqb_refl. reflexivity.
      * split; [split; [rewrite (own_eq own1 a (P0 u)) by reflexivity; exact ND|repeat split; assumption]|].
        unfold tgt1. rewrite G. destruct (Nat.eqb_spec (pref H p cl cw fx u) u); [contradiction|]. reflexivity.
    + inversion E; subst l' s'.
      split; [split; [rewrite (own_eq own1 a (P0 u)) by reflexivity; exact ND|repeat split; assumption]|].
      cbn. unfold tgt1. rewrite G, Nat.eqb_refl. reflexivity.
  - inversion E; subst l' s'. split; [|reflexivity].
    split; [rewrite (own_eq own1 a (P1 u t)) by reflexivity; exact ND|repeat split; assumption].
  - discriminate.
Qed.
Lemma comm1 l m x : own1 l <> own1 m -> rest1 l (rest1 m x) = rest1 m (rest1 l x).
Proof.
  intros Ho. destruct l as [u|u t|u], m as [v|v t'|v]; cbn in *; try reflexivity;
    try (destruct (Nat.eqb_spec (T u) u)); try (destruct (Nat.eqb_spec (T v) v)); cbn; try reflexivity; dceq.
Qed.
Lemma fold1 : forall rng c, fold_right rest1 c (map P0 rng) =
  set_opp (set_prop c (fun x => if mem x rng && negb (Nat.eqb (T x) x) then T x else prop c x))
    (fun t => opp c t + sumZ (fun u => if Nat.eqb (T u) u then 0 else if Nat.eqb (T u) t then w u else 0) rng).
Proof.
  induction rng as [|u rng IH]; intros c; cbn [map fold_right].
  - apply dc_eq; cbn; try reflexivity. fx. lia.
  - rewrite IH. clear IH. cbn [rest1]. destruct (Nat.eqb_spec (T u) u) as [Eq|Ne].
    + apply dc_eq; cbn; try reflexivity.
      * fx. rewrite (proj2 (Nat.eqb_eq _ _) Eq). lia.
      * fx. destruct (Nat.eqb_spec y u) as [->|]; [|reflexivity]. rewrite (proj2 (Nat.eqb_eq _ _) Eq).
        rewrite andb_false_r. cbn. reflexivity.
    + apply dc_eq; cbn; try reflexivity.
      * fx. unfold upd. rewrite (proj2 (Nat.eqb_neq _ _) Ne). rewrite (Nat.eqb_sym (T u) y).
        destruct (Nat.eqb_spec y (T u)) as [->|]; lia.
      * fx. unfold upd. destruct (Nat.eqb_spec y u) as [->|]; cbn; [|reflexivity].
        rewrite (proj2 (Nat.eqb_neq _ _) Ne). reflexivity.
Qed.
End L1.
Theorem loop1 rng s s' : NoDup rng -> par (step1 H p) (map P0 rng) s s' -> s' = (c1 rng (fst s) (snd s), snd s).
Proof.
  intros ND HP.
  assert (HI : inv1 (clu (fst s)) (cwt (fst s)) (snd s) (map P0 rng) s).
  { split; [|repeat split]. rewrite map_map. cbn. rewrite map_id. exact ND. }
  pose proof (par_fold (step1 H p) fst (rest1 (clu (fst s)) (cwt (fst s)) (snd s)) (inv1 (clu (fst s)) (cwt (fst s)) (snd s))) as F.
  assert (E : fst s' = fold_right (rest1 (clu (fst s)) (cwt (fst s)) (snd s)) (fst s) (map P0 rng)).
  { apply F; [| | |exact HP|exact HI].
    - intros a l b s0 l' s0'. apply step1_ok.
    - intros a l b m c s0 x [ND' _]. apply comm1. apply (own_neq own1 a l b m c ND').
    - intros a l b s0 x _ E. destruct s0 as [c f]. destruct l; cbn in E; try discriminate; [|reflexivity].
      destruct ((cwt c u =? w u) && enabled p u); [|discriminate]. destruct (Nat.eqb _ u); discriminate. }
  rewrite fold1 in E. destruct s' as [c' f']. cbn [fst] in E. f_equal; [exact E|].
  assert (G : snd (c', f') = snd s).
  { apply (par_preserves (step1 H p) (fun z => snd z = snd s)) with (2 := HP); [|reflexivity].
    intros l z l' z' Q E'. destruct z as [c f], z' as [c2 f2]. cbn in Q |- *. destruct l; cbn in E'; [| |discriminate].
    - destruct ((cwt c u =? w u) && enabled p u); [|congruence]. destruct (Nat.eqb _ u); inversion E'; congruence.
    - inversion E'; congruence. }
  exact G.
Qed.

(** ** Loop 2 *)
Section L2.
Variables (P : nat -> nat) (O : nat -> Z).   (* propositions and opportunistic weights before the loop *)
Definition pairb (x : nat) : bool := negb (Nat.eqb (P x) x) && Nat.eqb (P (P x)) x.
Definition lead (x : nat) : nat := Nat.min x (P x).
Definition ptgt (x : nat) : nat :=
  let a := Nat.min x (P x) in let b := Nat.max x (P x) in if O b <? O a then a else b.
Definition prop2 (rng : list nat) (x : nat) : nat := if pairb x && mem (lead x) rng then ptgt x else P x.
Definition opp2 (rng : list nat) (x : nat) : Z :=
  if pairb x && mem (lead x) rng && negb (Nat.eqb (ptgt x) x) then O x - w (ptgt x) else O x.
Definition fired (u : nat) : bool := Nat.ltb u (P u) && Nat.eqb (P (P u)) u.
Definition act (u v : nat) (c : dcore) : dcore :=
  let tgt := if opp c v <? opp c u then u else v in
  let src := if Nat.eqb tgt u then v else u in
  set_opp (set_prop c (upd (upd (prop c) u tgt) v tgt)) (upd (opp c) src (opp c src - w tgt)).
Definition own2 (l : l2) : nat := match l with Q0 u => u | Q1 u _ => u | Q2 u _ => u | Q3 u _ _ _ => u | Q4 u _ _ _ => u | QD u => u end.
Definition rest2 (l : l2) (c : dcore) : dcore :=
  match l with
  | Q0 u => if fired u then act u (P u) c else c
  | Q1 u v => if fired u then act u v c else c
  | Q2 u v => act u v c
  | Q3 u v tgt src => set_opp (set_prop c (upd (prop c) v tgt)) (upd (opp c) src (opp c src - w tgt))
  | Q4 u v tgt src => set_opp c (upd (opp c) src (opp c src - w tgt))
  | QD _ => c
  end.
Definition ok2 (c : dcore) (l : l2) : Prop :=
  match l with
  | Q0 u => fired u = true -> prop c u = P u /\ prop c (P u) = u
  | Q1 u v => v = P u /\ (u < v)%nat /\ (fired u = true -> prop c u = P u /\ prop c (P u) = u)
  | Q2 u v => v = P u /\ fired u = true
  | Q3 u v tgt src => v = P u /\ fired u = true /\ (tgt = u \/ tgt = v) /\ (src = u \/ src = v)
  | Q4 u v tgt src => v = P u /\ fired u = true /\ (tgt = u \/ tgt = v) /\ (src = u \/ src = v)
  | QD _ => True
  end.
Definition inv2 (ls : list l2) (s : dst) : Prop :=
  NoDup (map own2 ls) /\ (forall l, In l ls -> ok2 (fst s) l) /\
  (forall x, prop (fst s) x = P x \/ exists u, fired u = true /\ (x = u \/ x = P u) /\ (prop (fst s) x = u \/ prop (fst s) x = P u)).
Lemma fired_spec u : fired u = true <-> (u < P u)%nat /\ P (P u) = u.
Proof. unfold fired. rewrite andb_true_iff, Nat.ltb_lt, Nat.eqb_eq. tauto. Qed.
(** The pairs of different fired nodes are disjoint. *)
Lemma fired_disj u v : fired u = true -> fired v = true -> u <> v -> u <> P v /\ P u <> v /\ P u <> P v.
Proof.
  intros Hu Hv Ne. apply fired_spec in Hu. apply fired_spec in Hv. destruct Hu as [L1 E1], Hv as [L2 E2].
  repeat split; intros E; rewrite E in *; try lia.
Qed.
Lemma ok2_other c c' m u v : ok2 c m -> fired u = true -> v = P u -> own2 m <> u ->
  (forall x, x <> u -> x <> v -> prop c' x = prop c x) -> ok2 c' m.
Proof.
  intros Hm Hu -> Ho HE. destruct m as [z|z z'|z z'|z z' g r|z z' g r|z]; cbn in *; try exact Hm; try exact I.
  - intros Hz. destruct (fired_disj z u Hz Hu Ho) as [D1 [D2 D3]]. specialize (Hm Hz). rewrite !HE; auto.
  - destruct Hm as [E1 [E2 Hm]]. split; [exact E1|]. split; [exact E2|].
    intros Hz. destruct (fired_disj z u Hz Hu Ho) as [D1 [D2 D3]]. specialize (Hm Hz). rewrite !HE; auto.
Qed.
Lemma in_mid {A} (a b : list A) l m : In m (a ++ l :: b) -> m = l \/ In m (a ++ b).
Proof using. rewrite !in_app_iff. cbn. intuition. Qed.
Lemma own_mid {L} (own : L -> nat) a l b m : NoDup (map own (a ++ l :: b)) -> In m (a ++ b) -> own m <> own l.
Proof using.
  rewrite map_app. cbn [map]. intros ND Hm E. apply NoDup_remove_2 in ND. apply ND. rewrite <- map_app, <- E. apply in_map. exact Hm.
Qed.
Lemma step2_ok a l b s l' s' : inv2 (a ++ l :: b) s -> step2 H l s = Some (l', s') ->
  inv2 (a ++ l' :: b) s' /\ rest2 l (fst s) = rest2 l' (fst s').
Proof.
  intros [ND [HO HX]] E. destruct s as [c f]. cbn [fst] in *.
  assert (Hl : ok2 c l) by (apply HO; apply in_elt).
  assert (Hm : forall m, In m (a ++ b) -> ok2 c m).
  { intros m Hm. apply HO. apply in_app_iff in Hm. apply in_app_iff. cbn. tauto. }
  assert (same : forall l0 : l2, own2 l0 = own2 l -> ok2 c l0 -> inv2 (a ++ l0 :: b) (c, f)).
  { intros l0 El Ho. split; [rewrite (own_eq own2 a l) by exact El; exact ND|]. split; [|exact HX].
    intros m Hin. apply in_mid in Hin. destruct Hin as [->|Hin]; [exact Ho|apply Hm; exact Hin]. }
  destruct l as [u|u v|u v|u v g r|u v g r|u]; cbn [step2] in E.
  - destruct (Nat.ltb_spec u (prop c u)) as [Lt|Ge]; inversion E; subst l' s'.
    + assert (Ep : prop c u = P u).
      { destruct (HX u) as [Ex|[z [Fz [Hz Pz]]]]; [exact Ex|]. pose proof (proj1 (fired_spec z) Fz) as [L1 E1].
        destruct Hz as [->| ->]; [|lia]. destruct Pz as [Pz|Pz]; [lia|exact Pz]. }
      split; [|cbn; rewrite Ep; reflexivity].
      apply same; [reflexivity|]. cbn. split; [exact Ep|]. split; [exact Lt|exact Hl].
    + split; [apply same; cbn; auto|]. cbn. destruct (fired u) eqn:F; [|reflexivity]. exfalso.
      destruct (Hl F) as [Ea _]. apply fired_spec in F. lia.
  - destruct Hl as [Ev [Lt Hl]]. destruct (Nat.eqb_spec u (prop c v)) as [Eq|Ne]; inversion E; subst l' s'.
    + assert (F : fired u = true).
      { apply fired_spec. subst v. split; [exact Lt|].
        destruct (HX (P u)) as [Ex|[z [Fz [Hz Pz]]]]; [congruence|]. pose proof (proj1 (fired_spec z) Fz) as [L1 E1].
        destruct Hz as [Hz|Hz]; rewrite <- Eq in Pz.
        - rewrite Hz in *. destruct Pz as [Pz|Pz]; [lia|]. congruence.
        - destruct Pz as [Pz|Pz]; [subst z; exact E1|]. rewrite Hz, <- Pz in Lt. lia. }
      split; [apply same; [reflexivity|split; assumption]|]. cbn. rewrite F. reflexivity.
    + split; [apply same; cbn; auto|]. cbn. destruct (fired u) eqn:F; [|reflexivity]. exfalso.
      destruct (Hl eq_refl) as [_ Ea]. subst v. congruence.
  - destruct Hl as [Ev F]. inversion E; subst l' s'. clear E.
    set (g := if opp c v <? opp c u then u else v) in *. set (r := if Nat.eqb g u then v else u) in *.
    assert (Hg : g = u \/ g = v) by (unfold g; destruct (opp c v <? opp c u); auto).
    assert (Hr : r = u \/ r = v) by (unfold r; destruct (Nat.eqb g u); auto).
    split.
    + split; [rewrite (own_eq own2 a (Q2 u v)) by reflexivity; exact ND|]. split; cbn [fst prop set_prop].
      * intros m Hin. apply in_mid in Hin. destruct Hin as [->|Hin]; [cbn; tauto|].
        apply (ok2_other c _ m u v); [apply Hm; exact Hin|exact F|exact Ev|apply (own_mid own2 a (Q2 u v) b m ND Hin)|].
        cbn. intros x Hx _. apply upd_other. exact Hx.
      * intros x. unfold upd. destruct (Nat.eqb_spec x u) as [->|Hx]; [|apply HX].
        right. exists u. subst v. split; [exact F|]. split; [left; reflexivity|exact Hg].
    + cbn. unfold act. fold g. fold r. reflexivity.
  - destruct Hl as [Ev [F [Hg Hr]]]. inversion E; subst l' s'. clear E. split; [|reflexivity].
    split; [rewrite (own_eq own2 a (Q3 u v g r)) by reflexivity; exact ND|]. split; cbn [fst prop set_prop].
    + intros m Hin. apply in_mid in Hin. destruct Hin as [->|Hin]; [cbn; tauto|].
      apply (ok2_other c _ m u v); [apply Hm; exact Hin|exact F|exact Ev|apply (own_mid own2 a (Q3 u v g r) b m ND Hin)|].
      cbn. intros x _ Hx. apply upd_other. exact Hx.
    + intros x. unfold upd. destruct (Nat.eqb_spec x v) as [->|Hx]; [|apply HX].
      right. exists u. subst v. split; [exact F|]. split; [right; reflexivity|exact Hg].
  - destruct Hl as [Ev [F [Hg Hr]]]. inversion E; subst l' s'. clear E. split; [|reflexivity].
    split; [rewrite (own_eq own2 a (Q4 u v g r)) by reflexivity; exact ND|]. split; cbn [fst prop set_opp]; [|exact HX].
    intros m Hin. apply in_mid in Hin. destruct Hin as [->|Hin]; [exact I|].
    apply (ok2_other c _ m u v); [apply Hm; exact Hin|exact F|exact Ev|apply (own_mid own2 a (Q4 u v g r) b m ND Hin)|]. reflexivity.
  - discriminate.
Qed.
(** Each iteration touches only the two nodes of its pair. *)
Definition loc2 (u v : nat) (f : dcore -> dcore) : Prop :=
  exists (gp : nat -> nat -> Z -> Z -> nat * nat) (go : nat -> nat -> Z -> Z -> Z * Z), forall c,
    f c = let (pu, pv) := gp (prop c u) (prop c v) (opp c u) (opp c v) in
          let (ou, ov) := go (prop c u) (prop c v) (opp c u) (opp c v) in
          set_opp (set_prop c (upd (upd (prop c) u pu) v pv)) (upd (upd (opp c) u ou) v ov).
Lemma loc2_comm u v u' v' f g c : u <> u' -> u <> v' -> v <> u' -> v <> v' -> loc2 u v f -> loc2 u' v' g -> f (g c) = g (f c).
Proof using.
  intros N1 N2 N3 N4 [gp [go Hf]] [gp' [go' Hg]]. rewrite !Hf, !Hg.
  destruct (gp (prop c u) (prop c v) (opp c u) (opp c v)) as [pu pv] eqn:G1.
  destruct (go (prop c u) (prop c v) (opp c u) (opp c v)) as [ou ov] eqn:G2.
  destruct (gp' (prop c u') (prop c v') (opp c u') (opp c v')) as [pu' pv'] eqn:G3.
  destruct (go' (prop c u') (prop c v') (opp c u') (opp c v')) as [ou' ov'] eqn:G4.
  cbn [prop opp set_prop set_opp].
  rewrite !(upd_other _ v' u), !(upd_other _ u' u), !(upd_other _ v' v), !(upd_other _ u' v) by auto.
  rewrite !(upd_other _ v u'), !(upd_other _ u u'), !(upd_other _ v v'), !(upd_other _ u v') by auto.
  rewrite G1, G2, G3, G4. dceq.
Qed.
Lemma loc2_act u v : u <> v -> loc2 u v (act u v).
Proof.
  intros Ne.
  exists (fun pu pv ou ov => let g := if ov <? ou then u else v in (g, g)),
         (fun pu pv ou ov => let g := if ov <? ou then u else v in if Nat.eqb g u then (ou, ov - w g) else (ou - w g, ov)).
  intros c. unfold act. cbn zeta. destruct (opp c v <? opp c u) eqn:G.
  - rewrite Nat.eqb_refl. dceq.
  - destruct (Nat.eqb_spec v u); [congruence|]. dceq.
Qed.
Lemma loc2_set u v (gp : nat -> nat) (go : nat -> Z -> Z) : u <> v ->
  loc2 u v (fun c => set_opp (set_prop c (fun x => if Nat.eqb x v then gp (prop c v) else prop c x)) (fun x => if Nat.eqb x u || Nat.eqb x v then go x (opp c x) else opp c x)).
Proof.
  intros Ne. exists (fun pu pv ou ov => (pu, gp pv)), (fun pu pv ou ov => (go u ou, go v ov)). intros c.
  apply dc_eq; cbn; try reflexivity; fx; unfold upd.
  - destruct (Nat.eqb_spec y v) as [->|]; [rewrite orb_true_r; reflexivity|]. destruct (Nat.eqb_spec y u) as [->|]; reflexivity.
  - destruct (Nat.eqb_spec y v) as [->|]; [reflexivity|]. destruct (Nat.eqb_spec y u) as [->|]; reflexivity.
Qed.
Lemma loc2_ext u v (f g : dcore -> dcore) : (forall c, g c = f c) -> loc2 u v f -> loc2 u v g.
Proof using. intros E [gp [go Hf]]. exists gp, go. intros c. rewrite E. apply Hf. Qed.
Lemma loc2_rest c l : ok2 c l -> (forall x, rest2 l x = x) \/ (fired (own2 l) = true /\ loc2 (own2 l) (P (own2 l)) (rest2 l)).
Proof.
  intros Ho. destruct l as [u|u v|u v|u v g r|u v g r|u]; cbn in *; [| | | | |left; reflexivity].
  - destruct (fired u) eqn:F; [right|left; reflexivity]. split; [reflexivity|].
    apply (loc2_ext u (P u) (act u (P u))); [intros x; cbn; rewrite F; reflexivity|]. apply loc2_act. apply fired_spec in F. lia.
  - destruct Ho as [-> _]. destruct (fired u) eqn:F; [right|left; reflexivity]. split; [reflexivity|].
    apply (loc2_ext u (P u) (act u (P u))); [intros x; cbn; rewrite F; reflexivity|]. apply loc2_act. apply fired_spec in F. lia.
  - destruct Ho as [-> F]. right. split; [exact F|]. apply loc2_act. apply fired_spec in F. lia.
  - destruct Ho as [-> [F [Hg Hr]]]. right. split; [exact F|].
    assert (Ne : u <> P u) by (apply fired_spec in F; lia).
    destruct (loc2_set u (P u) (fun _ => g) (fun x o => if Nat.eqb x r then o - w g else o) Ne) as [gp [go Hs]].
    exists gp, go. intros x. rewrite <- Hs. dceq; destruct Hr; congruence.
  - destruct Ho as [-> [F [Hg Hr]]]. right. split; [exact F|].
    assert (Ne : u <> P u) by (apply fired_spec in F; lia).
    destruct (loc2_set u (P u) (fun x => x) (fun x o => if Nat.eqb x r then o - w g else o) Ne) as [gp [go Hs]].
    exists gp, go. intros x. rewrite <- Hs. dceq; destruct Hr; congruence.
Qed.
Lemma comm2 c l m x : ok2 c l -> ok2 c m -> own2 l <> own2 m -> rest2 l (rest2 m x) = rest2 m (rest2 l x).
Proof.
  intros Hl Hm Ne. destruct (loc2_rest c l Hl) as [E|[Fl Ll]]; [rewrite !E; reflexivity|].
  destruct (loc2_rest c m Hm) as [E|[Fm Lm]]; [rewrite !E; reflexivity|].
  destruct (fired_disj _ _ Fl Fm Ne) as [D1 [D2 D3]].
  apply (loc2_comm (own2 l) (P (own2 l)) (own2 m) (P (own2 m))); assumption.
Qed.
Lemma pair_lead x : pairb x = true -> fired (lead x) = true /\ (lead x = x \/ P (lead x) = x) /\ (lead x = x -> (x < P x)%nat) /\ (lead x <> x -> (P x < x)%nat /\ lead x = P x).
Proof.
  unfold pairb, lead. rewrite andb_true_iff, negb_true_iff, Nat.eqb_neq, Nat.eqb_eq. intros [N E]. rewrite fired_spec.
  destruct (Nat.min_spec x (P x)) as [[L ->]|[L ->]]; [repeat split; try tauto; lia|]. rewrite E.
  repeat split; try tauto; lia.
Qed.
Lemma fold2 : forall rng c, NoDup rng -> prop c = P -> opp c = O ->
  fold_right rest2 c (map Q0 rng) = set_opp (set_prop c (prop2 rng)) (opp2 rng).
Proof.
  induction rng as [|u rng IH]; intros c ND EP EO; cbn [map fold_right].
  - apply dc_eq; cbn; try reflexivity; fx; unfold prop2, opp2; cbn; rewrite andb_false_r; cbn; congruence.
  - inversion ND as [|? ? Hu ND']; subst. rewrite (IH c ND' EP EO). clear IH. cbn [rest2].
    destruct (fired u) eqn:F.
    + pose proof (proj1 (fired_spec u) F) as [Lt EPP].
      assert (Lu : lead u = u) by (unfold lead; lia).
      assert (Lv : lead (P u) = u) by (unfold lead; rewrite EPP; lia).
      assert (Pu : pairb u = true) by (unfold pairb; rewrite EPP, Nat.eqb_refl; destruct (Nat.eqb_spec (P u) u); [lia|reflexivity]).
      assert (Pv : pairb (P u) = true) by (unfold pairb; rewrite EPP, Nat.eqb_refl; destruct (Nat.eqb_spec u (P u)); [lia|reflexivity]).
      apply mem_false in Hu.
      assert (Tv : ptgt (P u) = ptgt u) by (unfold ptgt; rewrite EPP, (Nat.min_comm (P u)), (Nat.max_comm (P u)); reflexivity).
      assert (Tu : ptgt u = if O (P u) <? O u then u else P u).
      { unfold ptgt. replace (Nat.min u (P u)) with u by lia. replace (Nat.max u (P u)) with (P u) by lia. reflexivity. }
      assert (Oth : forall y, y <> u -> y <> P u -> pairb y && (Nat.eqb (lead y) u || mem (lead y) rng) = pairb y && mem (lead y) rng).
      { intros y N1 N2. destruct (pairb y) eqn:Py; [|reflexivity]. cbn. destruct (pair_lead y Py) as [_ [[Ly|Ly] _]].
        - rewrite Ly. destruct (Nat.eqb_spec y u); [contradiction|reflexivity].
        - destruct (Nat.eqb_spec (lead y) u) as [Eq|]; [|reflexivity]. rewrite Eq in Ly. congruence. }
      assert (Hsrc : forall s, (s = u \/ s = P u) -> opp2 rng s = O s).
      { intros s [->| ->]; unfold opp2; rewrite ?Pu, ?Pv, ?Lu, ?Lv, Hu; reflexivity. }
      unfold act. cbn [prop opp set_prop set_opp]. rewrite (Hsrc u), (Hsrc (P u)) by auto. rewrite <- Tu.
      assert (Hne : u <> P u) by lia.
      apply dc_eq; cbn [clu cwt opp prop hvy fixl cnt num oob set_prop set_opp]; try reflexivity; fx.
      * change (opp2 (u :: rng) y) with (if pairb y && mem (lead y) (u :: rng) && negb (Nat.eqb (ptgt y) y) then O y - w (ptgt y) else O y).
        cbn [mem existsb]. fold (mem (lead y) rng).
        destruct (Nat.eq_dec y u) as [->|N1]; [|destruct (Nat.eq_dec y (P u)) as [->|N2]].
        -- rewrite Pu, Lu, Nat.eqb_refl. cbn [andb orb]. unfold upd.
           destruct (Nat.eqb_spec (ptgt u) u) as [Eq|Nq]; cbn [negb].
           ++ destruct (Nat.eqb_spec u (P u)); [lia|]. apply Hsrc. left. reflexivity.
           ++ rewrite Nat.eqb_refl. rewrite Hsrc by (left; reflexivity). reflexivity.
        -- rewrite Pv, Lv, Nat.eqb_refl. cbn [andb orb]. rewrite Tv. unfold upd.
           destruct (Nat.eqb_spec (ptgt u) u) as [Eq|Nq]; cbn [negb].
           ++ rewrite Nat.eqb_refl. rewrite Hsrc by (right; reflexivity). rewrite Eq.
              destruct (Nat.eqb_spec u (P u)); [lia|]. reflexivity.
           ++ assert (Eq2 : ptgt u = P u) by (rewrite Tu in Nq |- *; destruct (O (P u) <? O u); congruence).
              rewrite Eq2, Nat.eqb_refl. cbn [negb]. destruct (Nat.eqb_spec (P u) u); [lia|]. apply Hsrc. right. reflexivity.
        -- rewrite (Nat.eqb_sym (lead y) u) in Oth || idtac.
           replace (pairb y && (Nat.eqb (lead y) u || mem (lead y) rng)) with (pairb y && mem (lead y) rng)
             by (symmetry; apply Oth; assumption).
           unfold upd. destruct (Nat.eqb_spec (ptgt u) u); destruct (Nat.eqb_spec y (P u)); try contradiction;
             destruct (Nat.eqb_spec y u); try contradiction; reflexivity.
      * unfold prop2. cbn [mem existsb]. fold (mem (lead y) rng). unfold upd.
        destruct (Nat.eqb_spec y (P u)) as [->|N2].
        -- rewrite Pv, Lv, Nat.eqb_refl. cbn. symmetry. exact Tv.
        -- destruct (Nat.eqb_spec y u) as [->|N1].
           ++ rewrite Pu, Lu, Nat.eqb_refl. reflexivity.
           ++ replace (pairb y && (Nat.eqb (lead y) u || mem (lead y) rng)) with (pairb y && mem (lead y) rng)
                by (symmetry; apply Oth; assumption). reflexivity.
    + assert (Oth : forall y, pairb y && mem (lead y) (u :: rng) = pairb y && mem (lead y) rng).
      { intros y. destruct (pairb y) eqn:Py; [|reflexivity]. cbn. destruct (Nat.eqb_spec (lead y) u) as [Eq|]; [|reflexivity].
        destruct (pair_lead y Py) as [Fy _]. rewrite Eq in Fy. congruence. }
      apply dc_eq; cbn [clu cwt opp prop hvy fixl cnt num oob set_prop set_opp]; try reflexivity; fx; unfold opp2, prop2; rewrite Oth; reflexivity.
Qed.
End L2.
Definition c2 (rng : list nat) (c : dcore) : dcore := set_opp (set_prop c (prop2 (prop c) (opp c) rng)) (opp2 (prop c) (opp c) rng).
Theorem loop2 rng s s' : NoDup rng -> par (step2 H) (map Q0 rng) s s' -> s' = (c2 rng (fst s), snd s).
Proof.
  intros ND HP. set (P := prop (fst s)). 
  assert (HI : inv2 P (map Q0 rng) s).
  { split; [rewrite map_map; cbn; rewrite map_id; exact ND|]. split; [|left; reflexivity].
    intros l Hl. apply in_map_iff in Hl. destruct Hl as [u [<- _]]. cbn. intros F. apply (fired_spec P (fun _ => 0)) in F. split; [reflexivity|apply F]. }
  assert (E : fst s' = fold_right (rest2 P) (fst s) (map Q0 rng)).
  { apply (par_fold (step2 H) fst (rest2 P) (inv2 P)); [| | |exact HP|exact HI].
    - intros a l b s0 l' s0'. apply (step2_ok P (fun _ => 0)).
    - intros a l b m c s0 x [ND' [HO _]]. apply (comm2 P (fun _ => 0) (fst s0)); [apply HO; apply in_elt| |apply (own_neq own2 a l b m c ND')].
      apply HO. apply in_or_app. right. right. apply in_elt.
    - intros a l b s0 x _ E. destruct s0 as [c f]. destruct l as [u|u v|u v|u v g r|u v g r|u]; cbn [step2] in E; try discriminate; [| |reflexivity].
      + destruct (Nat.ltb u (prop c u)); discriminate.
      + destruct (Nat.eqb u (prop c v)); discriminate. }
  rewrite (fold2 P (opp (fst s))) in E; [|exact ND|reflexivity|reflexivity].
  destruct s' as [c' f']. cbn [fst] in E. f_equal; [exact E|].
  assert (G : snd (c', f') = snd s).
  { apply (par_preserves (step2 H) (fun z => snd z = snd s)) with (2 := HP); [|reflexivity].
    intros l z l' z' Q E'. destruct z as [c f], z' as [c2 f2]. cbn in Q |- *.
    destruct l as [u|u v|u v|u v g r|u v g r|u]; cbn [step2] in E'; try discriminate.
    - destruct (Nat.ltb u (prop c u)); inversion E'; congruence.
    - destruct (Nat.eqb u (prop c v)); inversion E'; congruence.
    - inversion E'; congruence.
    - inversion E'; congruence.
    - inversion E'; congruence. }
  exact G.
Qed.
End Phases.
