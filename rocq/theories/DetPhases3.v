(** DetPhases3.v - loop 4 of the deterministic coarsener (approveNodes): the handlers of the groups run concurrently and read
    opportunistic weights which other handlers overwrite; the result is nevertheless independent of the schedule. *)
From Coq Require Import FunctionalExtensionality.
From Verif Require Import Base Spec ParLoop DetCoarse DetPhases.
Set Default Proof Using "All".

(** The longest prefix of a group that fits, and the weight of the cluster afterwards. *)
Fixpoint appr (w : nat -> Z) (mx : Z) (l : list nat) (tw : Z) : list nat * Z :=
  match l with
  | [] => ([], tw)
  | v :: l' => if mx <? tw + w v then ([], tw) else (v :: fst (appr w mx l' (tw + w v)), snd (appr w mx l' (tw + w v)))
  end.
Lemma appr_incl w mx l tw : incl (fst (appr w mx l tw)) l.
Proof.
  revert tw. induction l as [|v l IH]; intros tw; cbn; [intros x Hx; exact Hx|]. destruct (mx <? tw + w v); cbn; [intros x []|].
  intros x [->|Hx]; [left; reflexivity|right; apply (IH _ _ Hx)].
Qed.
Lemma appr_sum w mx l tw : snd (appr w mx l tw) = tw + sumZ w (fst (appr w mx l tw)).
Proof.
  revert tw. induction l as [|v l IH]; intros tw; cbn; [lia|]. destruct (mx <? tw + w v); cbn [fst snd sumZ]; [lia|]. rewrite IH. lia.
Qed.
Lemma appr_le w mx l tw : tw <= mx -> snd (appr w mx l tw) <= mx.
Proof.
  revert tw. induction l as [|v l IH]; intros tw Hw; cbn; [exact Hw|]. destruct (Z.ltb_spec mx (tw + w v)); cbn [fst snd]; [exact Hw|]. apply IH. lia.
Qed.
Lemma appr_app w mx g l tw : g <> [] -> mx < tw + sumZ w g -> appr w mx (g ++ l) tw = appr w mx g tw.
Proof.
  revert tw. induction g as [|v g IH]; intros tw Hn Hs; [congruence|]. cbn [app appr]. cbn [sumZ] in Hs.
  destruct (Z.ltb_spec mx (tw + w v)) as [Hlt|Hge]; [reflexivity|].
  assert (Hg : g <> []) by (intros ->; cbn [sumZ] in Hs; lia). rewrite (IH (tw + w v) Hg) by lia. reflexivity.
Qed.

Section L4.
Variables (H : hypergraph) (p : dparams) (hl : list nat) (P : nat -> nat) (O W : nat -> Z).
Local Notation w := (nw H).
Local Notation mx := (maxw p).
Definition grp (t : nat) : list nat := filter (fun v => Nat.eqb (P v) t) hl.
Definition ap (t : nat) : list nat := fst (appr w mx (grp t) (W t)).
Definition zt (t : nat) : Z := snd (appr w mx (grp t) (W t)).
Hypothesis NDhl : NoDup hl.
(** Groups are contiguous. *)
Hypothesis Hcont : forall t, exists pre post, hl = pre ++ grp t ++ post /\ (forall v, In v pre -> P v <> t) /\ (forall v, In v post -> P v <> t).
Hypothesis HK1 : forall t, grp t <> [] -> mx < W t + sumZ w (grp t).
Hypothesis HK2 : forall v, In v hl -> grp v <> [] -> O v <> w v /\ zt v <> w v.

Definition firstb (pos : nat) : bool :=
  match nth_error hl pos with
  | None => false
  | Some x => match pos with Datatypes.O => true | S q => negb (Nat.eqb (P (nth q hl 0%nat)) (P x)) end
  end.
Definition tof (pos : nat) : nat := P (nth pos hl 0%nat).
Definition seta (a : list nat) (t : nat) (f : nat -> nat) : nat -> nat := fun x => if mem x a then t else f x.
Definition cnta (a : list nat) : Z := sumZ (fun v => if O v =? w v then 1 else 0) a.
Definition nf4 (t : nat) (a : list nat) (zw : option Z) (z k : Z) (c : dcore) : dcore :=
  mkDC (seta a t (clu c)) (match zw with Some z' => upd (cwt c) t z' | None => cwt c end) (upd (opp c) t z) (prop c) (hvy c) (fixl c) (cnt c + k) (num c) (oob c).
Definition rest4 (l : l4) (c : dcore) : dcore :=
  match l with
  | B0 pos => if firstb pos then
                let r := appr w mx (skipn pos hl) (W (tof pos)) in nf4 (tof pos) (fst r) (Some (snd r)) (snd r) (cnta (fst r)) c
              else c
  | B1 t tw i n => let r := appr w mx (skipn i hl) tw in nf4 t (fst r) (Some (snd r)) (snd r) (n + cnta (fst r)) c
  | B2 t tw n => nf4 t [] (Some tw) tw n c
  | B3 t tw n => nf4 t [] None tw n c
  | BD => c
  end.
Definition own4 (l : l4) : list nat :=
  match l with B0 pos => if firstb pos then [tof pos] else [] | B1 t _ _ _ => [t] | B2 t _ _ => [t] | B3 t _ _ => [t] | BD => [] end.
Definition ok4 (c : dcore) (l : l4) : Prop :=
  match l with
  | B0 pos => firstb pos = true -> cwt c (tof pos) = W (tof pos)
  | B1 t tw i n => exists g1 g2 post, grp t = g1 ++ g2 /\ g2 <> [] /\ skipn i hl = g2 ++ post /\ tw = W t + sumZ w g1 /\
                     appr w mx (grp t) (W t) = (g1 ++ fst (appr w mx g2 tw), snd (appr w mx g2 tw))
  | B2 t tw n => grp t <> [] /\ tw = zt t
  | B3 t tw n => grp t <> [] /\ tw = zt t
  | BD => True
  end.
Definition inv4 (ls : list l4) (s : dst) : Prop :=
  NoDup (flat_map own4 ls) /\ (forall l, In l ls -> ok4 (fst s) l) /\ prop (fst s) = P /\
  (forall x, opp (fst s) x = O x \/ (grp x <> [] /\ opp (fst s) x = zt x)).
Lemma skipn_nth_cons {A} (l : list A) i x r : skipn i l = x :: r -> nth_error l i = Some x /\ skipn (S i) l = r.
Proof using.
  revert i. induction l as [|a l IH]; intros i E; [destruct i; discriminate|]. destruct i as [|i]; [inversion E; subst; split; reflexivity|].
  cbn in E |- *. apply IH. exact E.
Qed.
Lemma firstb_spec pos : firstb pos = true -> exists pre post, hl = pre ++ grp (tof pos) ++ post /\ length pre = pos /\ grp (tof pos) <> [] /\
  skipn pos hl = grp (tof pos) ++ post.
Proof.
  unfold firstb. destruct (nth_error hl pos) as [x|] eqn:E; [|discriminate]. intros F.
  assert (Et : tof pos = P x) by (unfold tof; rewrite (nth_error_nth hl pos 0%nat E); reflexivity).
  assert (Hx : In x (grp (P x))) by (unfold grp; apply filter_In; split; [eapply nth_error_In; eassumption|apply Nat.eqb_refl]).
  destruct (Hcont (P x)) as (pre & post & Ehl & Hpre & Hpost). rewrite Et.
  assert (Lp : length pre = pos).
  { destruct (lt_eq_lt_dec (length pre) pos) as [[Hlt|Heq]|Hgt]; [|exact Heq|].
    - exfalso. destruct pos as [|q]; [lia|]. apply negb_true_iff, Nat.eqb_neq in F. apply F.
      assert (Hq : In (nth q hl 0%nat) (grp (P x))).
      { assert (Ls : (S q < length hl)%nat) by (apply nth_error_Some; congruence).
        rewrite Ehl in E, Ls |- *. rewrite nth_error_app2 in E by lia. rewrite !app_length in Ls.
        destruct (lt_dec (S q - length pre) (length (grp (P x)))) as [Hi|Hi].
        - rewrite app_nth2 by lia. rewrite app_nth1 by lia. apply nth_In. lia.
        - exfalso. rewrite nth_error_app2 in E by lia. apply nth_error_In in E. apply (Hpost x E). reflexivity. }
      unfold grp in Hq. apply filter_In in Hq. apply Nat.eqb_eq, Hq.
    - exfalso. rewrite Ehl in E. rewrite nth_error_app1 in E by lia. apply nth_error_In in E. apply (Hpre x E). reflexivity. }
  exists pre, post. split; [exact Ehl|]. split; [exact Lp|]. split; [intros En; rewrite En in Hx; destruct Hx|].
  rewrite Ehl at 1. rewrite <- Lp, skipn_app, skipn_all, Nat.sub_diag. reflexivity.
Qed.
Lemma first_inj i j : firstb i = true -> firstb j = true -> tof i = tof j -> i = j.
Proof.
  intros Fi Fj E. destruct (firstb_spec i Fi) as (p1 & q1 & E1 & L1 & G1 & S1). destruct (firstb_spec j Fj) as (p2 & q2 & E2 & L2 & G2 & S2).
  rewrite <- E in *. destruct (lt_eq_lt_dec i j) as [[Hlt|Heq]|Hgt]; [|exact Heq|]; exfalso.
  - (* an element of the group occurs at position i in front of the group starting at j *)
    destruct (grp (tof i)) as [|x g] eqn:Eg; [congruence|].
    apply (skipn_nth_cons hl) in S1. destruct S1 as [N1 _]. apply (skipn_nth_cons hl) in S2. destruct S2 as [N2 _].
    assert (i = j) by (apply (proj1 (NoDup_nth_error hl) NDhl); [apply nth_error_Some; congruence|congruence]). lia.
  - destruct (grp (tof i)) as [|x g] eqn:Eg; [congruence|].
    apply (skipn_nth_cons hl) in S1. destruct S1 as [N1 _]. apply (skipn_nth_cons hl) in S2. destruct S2 as [N2 _].
    assert (i = j) by (apply (proj1 (NoDup_nth_error hl) NDhl); [apply nth_error_Some; congruence|congruence]). lia.
Qed.
Lemma flat_own_app a l b : flat_map own4 (a ++ l :: b) = flat_map own4 a ++ own4 l ++ flat_map own4 b.
Proof. rewrite flat_map_app. cbn. reflexivity. Qed.
Lemma own4_disj a l b m t : NoDup (flat_map own4 (a ++ l :: b)) -> In m (a ++ b) -> In t (own4 l) -> ~ In t (own4 m).
Proof.
  rewrite flat_own_app. intros ND Hm Hl Hmt.
  assert (Hin : In t (flat_map own4 a ++ flat_map own4 b)).
  { apply in_app_iff in Hm. apply in_or_app. destruct Hm as [Hm|Hm]; [left|right]; apply in_flat_map; exists m; split; assumption. }
  destruct l as [pos|t0 tw i n|t0 tw n|t0 tw n|]; cbn [own4] in ND, Hl; try (destruct (firstb pos)); try destruct Hl as [<-|[]]; try destruct Hl;
    cbn [app] in ND; apply NoDup_remove_2 in ND; apply ND; exact Hin.
Qed.
Lemma own4_shrink a l l' b : NoDup (flat_map own4 (a ++ l :: b)) -> own4 l' = own4 l \/ own4 l' = [] -> NoDup (flat_map own4 (a ++ l' :: b)).
Proof.
  rewrite !flat_own_app. intros ND [->| ->]; [exact ND|]. cbn [app].
  destruct (own4 l) as [|t [|t' r]] eqn:El; cbn [app] in ND; [exact ND|eapply NoDup_remove_1; exact ND|].
  exfalso. destruct l; cbn in El; try discriminate. destruct (firstb pos); discriminate.
Qed.
Lemma ok4_other c c' m t : ok4 c m -> ~ In t (own4 m) -> (forall x, x <> t -> cwt c' x = cwt c x) -> ok4 c' m.
Proof.
  intros Hm Ho HE. destruct m as [pos|t0 tw i n|t0 tw n|t0 tw n|]; cbn in *; try exact Hm.
  intros F. rewrite F in Ho. rewrite HE; [exact (Hm F)|]. intros E. apply Ho. left. exact E.
Qed.
Lemma step4_ok a l b s l' s' : inv4 (a ++ l :: b) s -> step4 H p hl l s = Some (l', s') ->
  inv4 (a ++ l' :: b) s' /\ rest4 l (fst s) = rest4 l' (fst s').
Proof.
  intros [ND [HO [EP HX]]] E. destruct s as [c f]. cbn [fst] in *.
  assert (Hl : ok4 c l) by (apply HO; apply in_elt).
  assert (Hm : forall m, In m (a ++ b) -> ok4 c m).
  { intros m Hm. apply HO. apply in_app_iff in Hm. apply in_app_iff. cbn. tauto. }
  assert (same : forall l0 c' f', (own4 l0 = own4 l \/ own4 l0 = []) -> ok4 c' l0 -> prop c' = P ->
            (forall t, In t (own4 l) -> forall x, x <> t -> cwt c' x = cwt c x) ->
            (own4 l = [] -> cwt c' = cwt c) ->
            (forall x, opp c' x = O x \/ (grp x <> [] /\ opp c' x = zt x)) -> inv4 (a ++ l0 :: b) (c', f')).
  { intros l0 c' f' Hown Ho Hp Hc Hc0 Hopp. split; [apply (own4_shrink a l); assumption|]. split; [|split; [exact Hp|exact Hopp]].
    intros m Hin. cbn [fst]. apply in_mid in Hin. destruct Hin as [->|Hin]; [exact Ho|].
    destruct (own4 l) as [|t r] eqn:El.
    - specialize (Hm m Hin). destruct m as [pos|t0 tw i n|t0 tw n|t0 tw n|]; cbn in *; try exact Hm. rewrite (Hc0 eq_refl). exact Hm.
    - apply (ok4_other c c' m t); [apply Hm; exact Hin| |apply Hc; left; reflexivity].
      apply (own4_disj a l b m t ND Hin). rewrite El. left. reflexivity. }
  destruct l as [pos|t tw i n|t tw n|t tw n|]; cbn [step4] in E.
  - rewrite EP in E. cbn [rest4]. destruct (nth_error hl pos) as [x|] eqn:Ex.
    2:{ inversion E; subst l' s'. assert (F : firstb pos = false) by (unfold firstb; rewrite Ex; reflexivity). rewrite F.
        split; [|reflexivity]. apply same; cbn; auto. }
    assert (Et : tof pos = P x) by (unfold tof; rewrite (nth_error_nth hl pos 0%nat Ex); reflexivity).
    assert (F : firstb pos = match pos with Datatypes.O => true | S q => negb (Nat.eqb (P (nth q hl 0%nat)) (P x)) end)
      by (unfold firstb; rewrite Ex; reflexivity).
    rewrite <- F in E. destruct (firstb pos) eqn:Fb; inversion E; subst l' s'.
    + pose proof (Hl Fb) as EW. rewrite Et in EW.
      destruct (firstb_spec pos Fb) as (pre & post & Ehl & Lp & Gn & Sk).
      split; [|cbn [rest4]; rewrite EW, Et; cbn; reflexivity].
      apply same; try (cbn; auto; fail).
      * left. cbn. rewrite Fb, Et. reflexivity.
      * cbn. exists [], (grp (P x)), post. rewrite Et in *. split; [reflexivity|]. split; [exact Gn|]. split; [exact Sk|].
        rewrite EW. cbn [sumZ]. split; [lia|]. cbn [app]. destruct (appr w mx (grp (P x)) (W (P x))); reflexivity.
    + split; [|reflexivity]. apply same; cbn; auto.
  - destruct Hl as (g1 & g2 & post & Eg & Gn & Sk & Etw & Eap).
    destruct g2 as [|v g2]; [congruence|]. cbn [app] in Sk. pose proof (skipn_nth_cons hl i v _ Sk) as [Nth Sk'].
    rewrite Nth in E. cbn [rest4]. rewrite Sk. cbn [appr].
    assert (HV : In v hl) by (eapply nth_error_In; exact Nth).
    assert (GN : grp t <> []) by (rewrite Eg; destruct g1; discriminate).
    destruct (Z.ltb_spec mx (tw + w v)) as [Hlt|Hge]; inversion E; subst l' s'.
    + split.
      * apply same; try (cbn; auto; fail). cbn. split; [exact GN|]. unfold zt. rewrite Eap. cbn [appr snd].
        destruct (Z.ltb_spec mx (tw + w v)); [reflexivity|lia].
      * cbn [rest4 fst snd]. cbn [cnta sumZ]. unfold cnta. cbn. rewrite Z.add_0_r. reflexivity.
    + assert (G2 : g2 <> []).
      { intros ->. pose proof (HK1 t GN) as K. rewrite Eg, sumZ_app in K. cbn [sumZ] in K. lia. }
      assert (Ev : (opp c v =? w v) = (O v =? w v)).
      { destruct (HX v) as [->|[Gv Ez]]; [reflexivity|]. destruct (HK2 v HV Gv) as [K1 K2]. rewrite Ez.
        rewrite (proj2 (Z.eqb_neq _ _) K1), (proj2 (Z.eqb_neq _ _) K2). reflexivity. }
      split.
      * apply same; try (cbn; auto; fail). cbn. exists (g1 ++ [v]), g2, post. split; [rewrite <- app_assoc; exact Eg|].
        split; [exact G2|]. split; [exact Sk'|]. split; [rewrite sumZ_app; cbn; lia|].
        rewrite Eap. cbn [appr]. destruct (Z.ltb_spec mx (tw + w v)); [lia|]. cbn [fst snd]. rewrite <- app_assoc. reflexivity.
      * cbn [rest4 fst snd]. rewrite Sk'. unfold nf4, cnta. cbn [sumZ set_clu clu cwt opp prop hvy fixl cnt num oob]. rewrite Ev.
        f_equal; [|destruct (O v =? w v); lia]. fx. unfold seta, upd. cbn [mem existsb]. fold (mem y (fst (appr w mx (g2 ++ post) (tw + w v)))).
        destruct (Nat.eqb_spec y v); cbn [orb]; [destruct (mem y _); reflexivity|reflexivity].
  - destruct Hl as [GN Ez]. inversion E; subst l' s'. split; [|reflexivity].
    apply same; cbn; auto. intros t0 [<-|[]] x Hx. apply upd_other. exact Hx. discriminate.
  - destruct Hl as [GN Ez]. inversion E; subst l' s'. split; [|reflexivity].
    apply same; cbn; auto. intros x. unfold upd. destruct (Nat.eqb_spec x t) as [->|]; [right; auto|apply HX].
  - discriminate.
Qed.
Lemma rest4_nf c l : ok4 c l -> (forall x, rest4 l x = x) \/ exists t a zw z k, In t (own4 l) /\ (forall v, In v a -> P v = t) /\ forall x, rest4 l x = nf4 t a zw z k x.
Proof.
  intros Ho. assert (G : forall t g post tw v, (forall v, In v g -> In v (grp t)) -> g <> [] -> mx < tw + sumZ w g ->
                    In v (fst (appr w mx (g ++ post) tw)) -> P v = t).
  { intros t g post tw v Hi Hn Hs Hv. rewrite appr_app in Hv by assumption. apply appr_incl in Hv. apply Hi in Hv.
    unfold grp in Hv. apply filter_In in Hv. apply Nat.eqb_eq, Hv. }
  destruct l as [pos|t tw i n|t tw n|t tw n|]; cbn [rest4 own4].
  - destruct (firstb pos) eqn:F; [right|left; reflexivity].
    destruct (firstb_spec pos F) as (pre & post & Ehl & Lp & Gn & Sk). rewrite Sk.
    eexists _, _, _, _, _. split; [left; reflexivity|]. split; [|intros x; reflexivity].
    intros v. apply G; auto.
  - right. destruct Ho as (g1 & g2 & post & Eg & Gn & Sk & Etw & Eap). rewrite Sk.
    eexists _, _, _, _, _. split; [left; reflexivity|]. split; [|intros x; reflexivity].
    intros v. apply G; [intros v' Hv'; rewrite Eg; apply in_or_app; right; exact Hv'|exact Gn|].
    assert (GN : grp t <> []) by (rewrite Eg; destruct g1, g2; try congruence; discriminate).
    pose proof (HK1 t GN) as K. rewrite Eg, sumZ_app in K. lia.
  - right. exists t, [], (Some tw), tw, n. split; [left; reflexivity|]. split; [intros v []|reflexivity].
  - right. exists t, [], None, tw, n. split; [left; reflexivity|]. split; [intros v []|reflexivity].
  - left. reflexivity.
Qed.
Lemma comm4 c l m x : ok4 c l -> ok4 c m -> (forall t, In t (own4 l) -> ~ In t (own4 m)) -> rest4 l (rest4 m x) = rest4 m (rest4 l x).
Proof.
  intros Hl Hm Hd. destruct (rest4_nf c l Hl) as [E|(t & a & zw & z & k & Ht & Ha & E)]; [rewrite !E; reflexivity|].
  destruct (rest4_nf c m Hm) as [E'|(t' & a' & zw' & z' & k' & Ht' & Ha' & E')]; [rewrite !E'; reflexivity|].
  assert (Ne : t <> t') by (intros ->; apply (Hd t'); assumption).
  rewrite !E, !E'. apply dc_eq; cbn [nf4 clu cwt opp prop hvy fixl cnt num oob]; try reflexivity; try lia.
  - fx. unfold seta. destruct (mem_spec y a) as [I1|]; destruct (mem_spec y a') as [I2|]; try reflexivity.
    apply Ha in I1. apply Ha' in I2. congruence.
  - destruct zw, zw'; try reflexivity. fx. unfold upd. eqbs; congruence.
  - fx. unfold upd. eqbs; congruence.
Qed.
(** Closed form of the loop. *)
Definition cl4 (c : dcore) : dcore :=
  mkDC (fun x => if mem x (ap (P x)) then P x else clu c x)
       (fun t => if existsb (fun v => Nat.eqb (P v) t) hl then zt t else cwt c t)
       (fun t => if existsb (fun v => Nat.eqb (P v) t) hl then zt t else opp c t)
       (prop c) (hvy c) (fixl c) (cnt c + sumZ (fun v => if mem v (ap (P v)) && (O v =? w v) then 1 else 0) hl) (num c) (oob c).
(** Closed form restricted to the groups which start in a prefix of the vector. *)
Definition tin (l : list nat) (t : nat) : bool := existsb (fun i => firstb i && Nat.eqb (tof i) t) l.
Definition cl4' (l : list nat) (c : dcore) : dcore :=
  mkDC (fun x => if tin l (P x) && mem x (ap (P x)) then P x else clu c x)
       (fun t => if tin l t then zt t else cwt c t)
       (fun t => if tin l t then zt t else opp c t)
       (prop c) (hvy c) (fixl c) (cnt c + sumZ (fun v => if tin l (P v) && mem v (ap (P v)) && (O v =? w v) then 1 else 0) hl) (num c) (oob c).
Lemma first_eq pos : firstb pos = true -> appr w mx (skipn pos hl) (W (tof pos)) = (ap (tof pos), zt (tof pos)).
Proof.
  intros F. destruct (firstb_spec pos F) as (pre & post & Ehl & Lp & Gn & Sk). rewrite Sk, appr_app; [|exact Gn|apply HK1; exact Gn].
  unfold ap, zt. destruct (appr w mx (grp (tof pos)) (W (tof pos))); reflexivity.
Qed.
Lemma ap_in t v : In v (ap t) -> In v hl /\ P v = t.
Proof. intros Hv. apply appr_incl in Hv. unfold grp in Hv. apply filter_In in Hv. rewrite Nat.eqb_eq in Hv. exact Hv. Qed.
Lemma appr_prefix : forall l tw, exists r, l = fst (appr w mx l tw) ++ r.
Proof.
  induction l as [|v l IH]; intros tw; cbn; [exists []; reflexivity|]. destruct (mx <? tw + w v); cbn; [exists (v :: l); reflexivity|].
  destruct (IH (tw + w v)) as [r Hr]. exists r. f_equal. exact Hr.
Qed.
Lemma ap_nodup t : NoDup (ap t).
Proof.
  destruct (appr_prefix (grp t) (W t)) as [r Hr]. assert (N : NoDup (grp t)) by (apply NoDup_filter_; exact NDhl).
  unfold ap. rewrite Hr in N. clear Hr. induction (fst (appr w mx (grp t) (W t))) as [|v l IH]; cbn in *; [constructor|].
  inversion N as [|? ? Hv N']; subst. constructor; [|apply IH; exact N']. intros Hi. apply Hv. apply in_or_app. left. exact Hi.
Qed.
Lemma cnta_ap t : cnta (ap t) = sumZ (fun v => if Nat.eqb (P v) t && mem v (ap (P v)) && (O v =? w v) then 1 else 0) hl.
Proof.
  unfold cnta. transitivity (sumZ (fun v => if O v =? w v then 1 else 0) (filter (fun v => mem v (ap t)) hl)).
  - apply sumZ_perm. apply NoDup_Permutation; [apply ap_nodup|apply NoDup_filter_; exact NDhl|].
    intros v. rewrite filter_In, mem_In. split; [intros Hv; split; [apply (ap_in t v Hv)|exact Hv]|tauto].
  - rewrite sumZ_filter. apply sumZ_ext. intros v _. destruct (mem_spec v (ap t)) as [Hv|Hv].
    + destruct (ap_in t v Hv) as [_ Et]. rewrite Et, Nat.eqb_refl. destruct (mem_spec v (ap t)); [reflexivity|contradiction].
    + destruct (Nat.eqb_spec (P v) t) as [->|]; [|reflexivity]. destruct (mem_spec v (ap t)); [contradiction|reflexivity].
Qed.
Lemma fold4 : forall l c, NoDup l -> fold_right rest4 c (map B0 l) = cl4' l c.
Proof.
  induction l as [|i l IH]; intros c ND; cbn [map fold_right].
  - apply dc_eq; cbn; try reflexivity. rewrite sumZ_zero by reflexivity. lia.
  - inversion ND as [|? ? Hi ND']; subst. rewrite (IH c ND'). clear IH. cbn [rest4]. destruct (firstb i) eqn:F.
    + rewrite (first_eq i F). cbn [fst snd].
      assert (Tn : tin l (tof i) = false).
      { unfold tin. apply not_true_is_false. intros Ht. apply existsb_exists in Ht. destruct Ht as [j [Hj Hb]].
        apply andb_true_iff in Hb. rewrite Nat.eqb_eq in Hb. destruct Hb as [Fj Ej]. rewrite (first_inj j i Fj F Ej) in Hj. contradiction. }
      assert (Tc : forall t, tin (i :: l) t = Nat.eqb (tof i) t || tin l t) by (intros t; unfold tin; cbn; rewrite F; reflexivity).
      apply dc_eq; cbn [nf4 cl4' clu cwt opp prop hvy fixl cnt num oob]; try reflexivity.
      * fx. unfold seta. rewrite Tc. destruct (mem_spec y (ap (tof i))) as [I1|I1].
        -- destruct (ap_in _ _ I1) as [_ Ey]. rewrite Ey, Nat.eqb_refl. cbn. destruct (mem_spec y (ap (tof i))); [reflexivity|contradiction].
        -- destruct (Nat.eqb_spec (tof i) (P y)) as [Eq|]; [|reflexivity]. rewrite <- Eq, Tn. cbn.
           destruct (mem_spec y (ap (tof i))); [contradiction|reflexivity].
      * fx. rewrite Tc. unfold upd. rewrite (Nat.eqb_sym y). destruct (Nat.eqb_spec (tof i) y) as [->|]; reflexivity.
      * fx. rewrite Tc. unfold upd. rewrite (Nat.eqb_sym y). destruct (Nat.eqb_spec (tof i) y) as [->|]; reflexivity.
      * rewrite cnta_ap. rewrite <- Z.add_assoc, <- sumZ_plus. f_equal. apply sumZ_ext. intros v _. rewrite Tc, (Nat.eqb_sym (P v)).
        destruct (Nat.eqb_spec (tof i) (P v)) as [Eq|]; cbn [orb andb]; [|lia]. rewrite <- Eq, Tn. cbn [andb]. lia.
    + assert (Tc : forall t, tin (i :: l) t = tin l t) by (intros t; unfold tin; cbn; rewrite F; reflexivity).
      apply dc_eq; cbn [cl4' clu cwt opp prop hvy fixl cnt num oob]; try reflexivity; try (fx; rewrite Tc; reflexivity).
      f_equal. apply sumZ_ext. intros v _. rewrite Tc. reflexivity.
Qed.
Lemma tin_all t : tin (seq 0 (length hl)) t = existsb (fun v => Nat.eqb (P v) t) hl.
Proof.
  apply Bool.eq_iff_eq_true. unfold tin. rewrite !existsb_exists. split.
  - intros [i [Hi Hb]]. apply andb_true_iff in Hb. destruct Hb as [F E]. exists (nth i hl 0%nat). apply in_seq in Hi. split; [apply nth_In; lia|exact E].
  - intros [v [Hv E]]. apply Nat.eqb_eq in E. destruct (Hcont t) as (pre & post & Ehl & Hpre & Hpost).
    assert (Gn : grp t <> []).
    { assert (Hg : In v (grp t)) by (unfold grp; apply filter_In; split; [exact Hv|apply Nat.eqb_eq; exact E]). intros En. rewrite En in Hg. destruct Hg. }
    destruct (grp t) as [|x g] eqn:Eg; [congruence|].
    assert (Hx : P x = t) by (assert (Hx : In x (grp t)) by (rewrite Eg; left; reflexivity); unfold grp in Hx; apply filter_In in Hx; apply Nat.eqb_eq, Hx).
    assert (Nx : nth_error hl (length pre) = Some x) by (rewrite Ehl, nth_error_app2, Nat.sub_diag by lia; reflexivity).
    exists (length pre). split; [apply in_seq; split; [lia|]; apply nth_error_Some; congruence|].
    apply andb_true_iff. split.
    + unfold firstb. rewrite Nx. destruct (length pre) as [|q] eqn:Lp; [reflexivity|]. apply negb_true_iff, Nat.eqb_neq. rewrite Hx.
      apply Hpre. rewrite Ehl. rewrite app_nth1 by lia. apply nth_In. lia.
    + unfold tof. rewrite (nth_error_nth hl _ 0%nat Nx). apply Nat.eqb_eq. exact Hx.
Qed.
Lemma fold4_all c : fold_right rest4 c (map B0 (seq 0 (length hl))) = cl4 c.
Proof.
  rewrite fold4 by apply seq_NoDup. apply dc_eq; cbn [cl4 cl4' clu cwt opp prop hvy fixl cnt num oob]; try reflexivity.
  - fx. rewrite tin_all. destruct (mem_spec y (ap (P y))) as [Hy|]; [|rewrite andb_false_r; reflexivity].
    destruct (ap_in _ _ Hy) as [Hh _].
    replace (existsb (fun v => Nat.eqb (P v) (P y)) hl) with true; [reflexivity|].
    symmetry. apply existsb_exists. exists y. split; [exact Hh|apply Nat.eqb_refl].
  - fx. rewrite tin_all. reflexivity.
  - fx. rewrite tin_all. reflexivity.
  - f_equal. apply sumZ_ext. intros v Hv. rewrite tin_all.
    replace (existsb (fun v0 => Nat.eqb (P v0) (P v)) hl) with true; [reflexivity|].
    symmetry. apply existsb_exists. exists v. split; [exact Hv|apply Nat.eqb_refl].
Qed.
Lemma nodup_flat_own l : NoDup l -> NoDup (flat_map own4 (map B0 l)).
Proof.
  induction l as [|i l IH]; intros ND; cbn; [constructor|]. inversion ND as [|? ? Hi ND']; subst.
  destruct (firstb i) eqn:F; cbn; [|apply IH; exact ND']. constructor; [|apply IH; exact ND'].
  intros Hin. apply in_flat_map in Hin. destruct Hin as [m [Hm Ht]]. apply in_map_iff in Hm. destruct Hm as [j [<- Hj]]. cbn in Ht.
  destruct (firstb j) eqn:Fj; [|destruct Ht]. destruct Ht as [Ht|[]]. rewrite (first_inj j i Fj F Ht) in Hj. contradiction.
Qed.
Theorem loop4 s s' : prop (fst s) = P -> opp (fst s) = O -> cwt (fst s) = W ->
  par (step4 H p hl) (map B0 (seq 0 (length hl))) s s' -> fst s' = cl4 (fst s) /\ (hasf p = false -> snd s' = snd s).
Proof.
  intros EP EO EW HP. split.
  - rewrite <- fold4_all. apply (par_fold (step4 H p hl) fst rest4 inv4); [| | |exact HP|].
    + intros a l b s0 l' s0'. apply step4_ok.
    + intros a l b m c s0 x [ND [HO _]]. apply (comm4 (fst s0)); [apply HO; apply in_elt|apply HO; apply in_or_app; right; right; apply in_elt|].
      intros t Ht. apply (own4_disj a l (b ++ m :: c) m t ND); [|exact Ht]. rewrite !in_app_iff. cbn. tauto.
    + intros a l b s0 x [_ [HO _]] E. destruct s0 as [c f]. destruct l as [pos|t tw i n|t tw n|t tw n|]; cbn [step4] in E; try discriminate; [| |reflexivity].
      * destruct (nth_error hl pos); [|discriminate]. destruct (match pos with Datatypes.O => true | S q => _ end); discriminate.
      * destruct (nth_error hl i); [|discriminate]. destruct (_ <? _); discriminate.
    + split; [apply nodup_flat_own; apply seq_NoDup|]. split; [|split; [exact EP|left; rewrite EO; reflexivity]].
      intros l Hl. apply in_map_iff in Hl. destruct Hl as [i [<- _]]. cbn. intros _. rewrite EW. reflexivity.
  - intros Hf. apply (par_preserves (step4 H p hl) (fun z => snd z = snd s)) with (2 := HP); [|reflexivity].
    intros l z l' z' Q E'. destruct z as [c f], z' as [cc ff]. cbn in Q |- *.
    destruct l as [pos|t tw i n|t tw n|t tw n|]; cbn [step4] in E'; try discriminate.
    + destruct (nth_error hl pos); [|inversion E'; congruence]. destruct (match pos with Datatypes.O => true | S q => _ end); inversion E'; congruence.
    + destruct (nth_error hl i); [|inversion E'; congruence]. destruct (_ <? _); [inversion E'; congruence|].
      unfold fcontract in E'. rewrite Hf in E'. inversion E'; congruence.
    + inversion E'; congruence.
    + inversion E'; congruence.
Qed.
End L4.
