(** DetCoarseThms.v - what a pass of the deterministic coarsener guarantees: independence of the schedule, weight limit, communities,
    fixed vertices, exact number of clusters, no access past the end of a vector. *)
From Coq Require Import FunctionalExtensionality.
From Verif Require Import Base Spec SpecLemmas ParLoop DetCoarse DetPhases DetPhases2 DetPhases3.
Set Default Proof Using "All".

(** ** Generic facts *)
Lemma perm_mem l l' x : Permutation l l' -> mem x l = mem x l'.
Proof. intros HP. apply Bool.eq_iff_eq_true. rewrite !mem_In. split; apply Permutation_in; [exact HP|apply Permutation_sym; exact HP]. Qed.
Lemma perm_existsb (f : nat -> bool) l l' : Permutation l l' -> existsb f l = existsb f l'.
Proof.
  intros HP. apply Bool.eq_iff_eq_true. rewrite !existsb_exists.
  split; intros [x [Hx Hf]]; exists x; (split; [|exact Hf]).
  - apply (Permutation_in x HP Hx).
  - apply (Permutation_in x (Permutation_sym HP) Hx).
Qed.
Lemma perm_count l l' x : Permutation l l' -> count_occ Nat.eq_dec l x = count_occ Nat.eq_dec l' x.
Proof. intros HP. apply (Permutation_count_occ Nat.eq_dec). exact HP. Qed.
Lemma ssorted_unique {A} (R : A -> A -> Prop) : (forall a b, R a b -> ~ R b a) ->
  forall l l', Permutation l l' -> StronglySorted R l -> StronglySorted R l' -> l = l'.
Proof.
  intros As. induction l as [|a l IH]; intros l' HP S1 S2; [apply Permutation_nil in HP; congruence|].
  destruct l' as [|b l']; [apply Permutation_sym, Permutation_nil in HP; discriminate|].
  inversion S1 as [|? ? S1' F1]; subst. inversion S2 as [|? ? S2' F2]; subst. rewrite Forall_forall in F1, F2.
  assert (E : a = b).
  { assert (Ha : In a (b :: l')) by (eapply Permutation_in; [exact HP|left; reflexivity]).
    assert (Hb : In b (a :: l)) by (eapply Permutation_in; [apply Permutation_sym; exact HP|left; reflexivity]).
    destruct Ha as [->|Ha]; [reflexivity|]. destruct Hb as [->|Hb]; [reflexivity|]. exfalso. apply (As a b); [apply F1; exact Hb|apply F2; exact Ha]. }
  subst b. f_equal. apply IH; [eapply Permutation_cons_inv; exact HP|exact S1'|exact S2'].
Qed.
Lemma filter_contig (P : nat -> nat) t : forall l, StronglySorted (fun a b => (P a <= P b)%nat) l ->
  exists pre post, l = pre ++ filter (fun v => Nat.eqb (P v) t) l ++ post /\ (forall v, In v pre -> P v <> t) /\ (forall v, In v post -> P v <> t).
Proof.
  induction l as [|a l IH]; intros S; [exists [], []; repeat split; intros v []|]. inversion S as [|? ? S' F]; subst. rewrite Forall_forall in F.
  destruct (IH S') as (pre & post & E & Hpre & Hpost). cbn. destruct (Nat.eqb_spec (P a) t) as [Ea|Na].
  - destruct pre as [|b pre].
    + exists [], post. cbn. split; [f_equal; exact E|]. split; [intros v []|exact Hpost].
    + (* nothing in front of the group can be in front of it with a larger key *)
      assert (Eg : filter (fun v => Nat.eqb (P v) t) l = []).
      { destruct (filter _ l) as [|x g] eqn:G; [reflexivity|]. exfalso.
        assert (Hx : In x l /\ P x = t) by (assert (Hx : In x (filter (fun v => Nat.eqb (P v) t) l)) by (rewrite G; left; reflexivity); apply filter_In in Hx; rewrite Nat.eqb_eq in Hx; exact Hx).
        assert (Hb : P b <> t) by (apply Hpre; left; reflexivity).
        assert (Lb : (P a <= P b)%nat) by (apply F; rewrite E; left; reflexivity).
        assert (Lx : (P b <= P x)%nat).
        { rewrite E in S'. cbn in S'. inversion S' as [|? ? _ F']; subst. rewrite Forall_forall in F'. apply F'.
          apply in_or_app. right. left. reflexivity. }
        lia. }
      rewrite Eg in *. exists [], l. cbn. split; [reflexivity|]. split; [intros v []|].
      intros v Hv Et. assert (Hf : In v (filter (fun v => Nat.eqb (P v) t) l)) by (apply filter_In; rewrite Nat.eqb_eq; auto). rewrite Eg in Hf. destruct Hf.
  - exists (a :: pre), post. cbn. split; [f_equal; exact E|]. split; [|exact Hpost]. intros v [<-|Hv]; [exact Na|apply Hpre; exact Hv].
Qed.
Lemma ssorted_weaken {A} (R R' : A -> A -> Prop) l : (forall a b, R a b -> R' a b) -> StronglySorted R l -> StronglySorted R' l.
Proof. intros HR. induction 1; constructor; [assumption|]. eapply Forall_impl; [|eassumption]. intros b. apply HR. Qed.
Lemma sum_sub (f : nat -> Z) l N : NoDup l -> NoDup N -> incl l N -> (forall x, In x N -> ~ In x l -> f x = 0) -> sumZ f l = sumZ f N.
Proof.
  intros N1 N2 Hi Hz. transitivity (sumZ f (filter (fun x => mem x l) N)).
  - apply sumZ_perm. apply NoDup_Permutation; [exact N1|apply NoDup_filter_; exact N2|]. intros x. rewrite filter_In, mem_In. split; [auto|tauto].
  - rewrite sumZ_filter. apply sumZ_ext. intros x Hx. destruct (mem_spec x l); [reflexivity|]. symmetry. apply Hz; assumption.
Qed.

Section Det.
Variables (H : hypergraph) (p : dparams).
Local Notation w := (nw H).
Local Notation N := (nodes H).
Hypothesis WF : wf_hg H.
Hypothesis Wpos : forall x, In x N -> 0 < w x.

(** ** What the rating returns *)
Lemma radd_keys m t x k : In k (map fst (radd p m t x)) -> k = t \/ In k (map fst m).
Proof using.
  induction m as [|[t' y] m IH]; cbn; [intros [E|[]]; left; congruence|].
  destruct (Nat.eqb t' t); cbn; intros [E|Hk]; auto. destruct (IH Hk); auto.
Qed.
Lemma rate_edge_keys cl m e k : In k (map fst (rate_edge H p cl m e)) -> In k (map fst m) \/ exists v, In v (pins H e) /\ cl v = k.
Proof using.
  unfold rate_edge.
  assert (G : forall l m b, In k (map fst (fst (fold_left (fun mb v => let t := cl v in
         if mem (bloom p t) (snd mb) then mb else (radd p (fst mb) t (escore p e), bloom p t :: snd mb)) l (m, b)))) ->
         In k (map fst m) \/ exists v, In v l /\ cl v = k).
  { induction l as [|v l IH]; intros m0 b0 Hk; cbn [fold_left] in Hk; [left; exact Hk|].
    cbn [fst snd] in Hk. destruct (mem (bloom p (cl v)) b0).
    - destruct (IH _ _ Hk) as [Hm|[x [Hx E]]]; [left; exact Hm|right; exists x; split; [right; exact Hx|exact E]].
    - destruct (IH _ _ Hk) as [Hm|[x [Hx E]]]; [|right; exists x; split; [right; exact Hx|exact E]].
      apply radd_keys in Hm. destruct Hm as [->|Hm]; [right; exists v; split; [left; reflexivity|reflexivity]|left; exact Hm]. }
  intros Hk. apply (G _ _ _ Hk).
Qed.
Lemma rating_keys cl u k : In u N -> In k (map fst (rating H p cl u)) -> exists v, In v N /\ cl v = k.
Proof.
  intros Hu. unfold rating.
  assert (G : forall l m, (forall e, In e l -> In e (edges H)) ->
     In k (map fst (fold_left (fun m e => if Nat.ltb (length (pins H e)) (thresh p) then rate_edge H p cl m e else m) l m)) ->
     In k (map fst m) \/ exists v, In v N /\ cl v = k).
  { induction l as [|e l IH]; intros m Hl Hk; cbn [fold_left] in Hk; [left; exact Hk|].
    apply IH in Hk; [|intros e' He'; apply Hl; right; exact He']. destruct Hk as [Hk|Hk]; [|right; exact Hk].
    destruct (Nat.ltb (length (pins H e)) (thresh p)); [|left; exact Hk].
    apply rate_edge_keys in Hk. destruct Hk as [Hk|[v [Hv E]]]; [left; exact Hk|].
    right. exists v. split; [apply (wf_pins_nodes H WF e v); [apply Hl; left; reflexivity|exact Hv]|exact E]. }
  intros Hk. destruct (G (inc H u) [] (fun e He => proj1 (proj1 (wf_inc H WF u e Hu) He)) Hk) as [[]|R]. exact R.
Qed.
Lemma best_targets_ok cw f u m t : In t (best_targets H p cw f u m) -> In t (map fst m) /\ feasible H p cw f u t = true.
Proof using.
  unfold best_targets.
  assert (G : forall l bs, In t (snd (fold_left (fun (bs : D p * list nat) en =>
         if negb (dlt p (snd en) (fst bs)) && feasible H p cw f u (fst en)
         then if dlt p (fst bs) (snd en) then (snd en, [fst en]) else (fst bs, snd bs ++ [fst en])
         else bs) l bs)) -> In t (snd bs) \/ (In t (map fst l) /\ feasible H p cw f u t = true)).
  { induction l as [|en l IH]; intros bs Ht; cbn [fold_left] in Ht; [left; exact Ht|].
    apply IH in Ht. destruct Ht as [Ht|[Ht Hf]]; [|right; split; [right; exact Ht|exact Hf]].
    destruct (negb (dlt p (snd en) (fst bs)) && feasible H p cw f u (fst en)) eqn:B; [|left; exact Ht].
    apply andb_true_iff in B. destruct B as [_ B]. destruct (dlt p (fst bs) (snd en)); cbn [snd] in Ht.
    - destruct Ht as [<-|[]]. right. split; [left; reflexivity|exact B].
    - apply in_app_iff in Ht. destruct Ht as [Ht|[<-|[]]]; [left; exact Ht|]. right. split; [left; reflexivity|exact B]. }
  intros Ht. destruct (G m _ Ht) as [[]|R]. exact R.
Qed.
Lemma pref_ok cl cw f u : In u N -> pref H p cl cw f u = u \/
  ((exists v, In v N /\ cl v = pref H p cl cw f u) /\ feasible H p cw f u (pref H p cl cw f u) = true).
Proof.
  intros Hu. unfold pref. destruct (best_targets H p cw f u (rating H p cl u)) as [|t l] eqn:E; [left; reflexivity|].
  right. set (k := nth _ (t :: l) u).
  assert (Hk : In k (best_targets H p cw f u (rating H p cl u))).
  { rewrite E. unfold k. apply nth_In. apply Nat.mod_upper_bound. discriminate. }
  apply best_targets_ok in Hk. destruct Hk as [Hk Hf]. split; [apply (rating_keys cl u k Hu Hk)|exact Hf].
Qed.
Lemma feasible_spec cw f u t : feasible H p cw f u t = true ->
  t <> u /\ com p t = com p u /\ cw t + w u <= maxw p /\ (hasf p = true -> accept H p f t u = true).
Proof using.
  unfold feasible. rewrite !andb_true_iff, negb_true_iff, Nat.eqb_neq, Nat.eqb_eq, Z.leb_le, orb_true_iff, negb_true_iff. intros [[[A B] C] E].
  repeat split; try assumption. intros Hf. destruct E; congruence.
Qed.
Lemma accept_fix f t u b : accept H p f t u = true -> fblk p u = Some b -> fblk p t = Some b.
Proof using. unfold accept. intros A E. rewrite E in A. destruct (fblk p t); [|discriminate]. apply Nat.eqb_eq in A. congruence. Qed.

(** ** The invariant between two sub-rounds *)
Definition members (c : dcore) (t : nat) : list nat := filter (fun x => Nat.eqb (clu c x) t) N.
Definition cweight (c : dcore) (t : nat) : Z := sumZ w (members c t).
Definition nonempty (c : dcore) (t : nat) : bool := existsb (fun x => Nat.eqb (clu c x) t) N.
Record SI (pend : list nat) (c : dcore) : Prop := {
  si_clu : forall x, In x N -> In (clu c x) N;
  si_w : forall x, In x N -> cwt c (clu c x) = cweight c (clu c x) /\ opp c (clu c x) = cwt c (clu c x);
  si_pend : forall u, In u pend -> In u N /\ clu c u = u /\ prop c u = u;
  si_num : num c = sumZ (fun t => Z.b2z (nonempty c t)) N;
  si_com : forall x, In x N -> com p (clu c x) = com p x;
  si_max : forall x, In x N -> cweight c (clu c x) <= maxw p \/ members c (clu c x) = [clu c x];
  si_fix : forall x b, hasf p = true -> In x N -> fblk p x = Some b -> fblk p (clu c x) = Some b;
  si_stale : forall v u, prop c v = u -> v <> u -> In u pend -> w u < cwt c u;
  si_hvy : forall x, hvy c x = 0%nat;
  si_fixl : forall x, fixl c x = 0%nat;
  si_cnt : cnt c = 0;
  si_oob : oob c = false
}.

(** ** Proposals after loops 1 and 2 *)
Definition asks (P : nat -> nat) (rng : list nat) (u t : nat) : bool := mem u rng && mv P u && Nat.eqb (P u) t.
Record proposals (rng : list nat) (c : dcore) (f : dfix) (P : nat -> nat) (O : nat -> Z) : Prop := {
  pr_in : forall u, In u rng -> P u = u \/ (cwt c u = w u /\ (exists v, In v N /\ clu c v = P u) /\ feasible H p (cwt c) f u (P u) = true);
  pr_out : forall x, ~ In x rng -> P x = prop c x;
  pr_opp : forall t, O t = opp c t + sumZ (fun u => if asks P rng u t then w u else 0) N
}.
Section Sub.
Variables (rng pend : list nat) (c : dcore) (f : dfix).
Hypothesis HSI : SI (rng ++ pend) c.
Hypothesis NDr : NoDup (rng ++ pend).
Lemma NDrng : NoDup rng.
Proof using NDr. clear HSI. induction rng as [|a l IH]; [constructor|]. cbn in NDr. inversion NDr as [|? ? Ha N']; subst. constructor; [|apply IH; exact N'].
  intros Hi. apply Ha. apply in_or_app. left. exact Hi. Qed.
Lemma rng_in u : In u rng -> In u N /\ clu c u = u /\ prop c u = u.
Proof using HSI. intros Hu. apply (si_pend _ _ HSI). apply in_or_app. left. exact Hu. Qed.
Local Notation T := (tgt1 H p (clu c) (cwt c) f).
Lemma T_ok u : In u rng -> T u = u \/ (cwt c u = w u /\ (exists v, In v N /\ clu c v = T u) /\ feasible H p (cwt c) f u (T u) = true).
Proof.
  intros Hu. unfold tgt1. destruct ((cwt c u =? w u) && enabled p u) eqn:G; [|left; reflexivity].
  apply andb_true_iff in G. destruct G as [G _]. apply Z.eqb_eq in G.
  destruct (pref_ok (clu c) (cwt c) f u (proj1 (rng_in u Hu))) as [E|[A B]]; [left; exact E|right; split; [exact G|split; assumption]].
Qed.
Let k1 := c1 H p rng c f.
Lemma prop1_in u : In u rng -> prop k1 u = T u.
Proof.
  intros Hu. unfold k1, c1. cbn. destruct (mem_spec u rng); [|contradiction]. cbn.
  destruct (Nat.eqb_spec (T u) u) as [E|]; cbn; [|reflexivity]. rewrite E. apply (rng_in u Hu).
Qed.
Lemma prop1_out u : ~ In u rng -> prop k1 u = prop c u.
Proof. intros Hu. unfold k1, c1. cbn. destruct (mem_spec u rng); [contradiction|]. reflexivity. Qed.
Lemma incl_rng : incl rng N.
Proof. intros u Hu. apply (rng_in u Hu). Qed.
Lemma opp1_eq t : opp k1 t = opp c t + sumZ (fun u => if asks (prop k1) rng u t then w u else 0) N.
Proof.
  unfold k1 at 1, c1. cbn [opp set_opp]. f_equal. etransitivity.
  2:{ apply (sum_sub _ rng N); [apply NDrng|apply (wf_nodes H WF)|apply incl_rng|].
      intros x _ Hx. unfold asks. destruct (mem_spec x rng); [contradiction|reflexivity]. }
  apply sumZ_ext. intros u Hu. unfold asks, mv. rewrite (prop1_in u Hu). destruct (mem_spec u rng); [|contradiction]. cbn.
  destruct (Nat.eqb (T u) u); reflexivity.
Qed.
Lemma proposals1 : proposals rng c f (prop k1) (opp k1).
Proof.
  split.
  - intros u Hu. rewrite (prop1_in u Hu). apply T_ok. exact Hu.
  - apply prop1_out.
  - apply opp1_eq.
Qed.
(** A pair that fires lies completely in the range. *)
Lemma pair_in x : pairb (prop k1) x = true -> In (lead (prop k1) x) rng -> In x rng /\ In (prop k1 x) rng.
Proof.
  intros Hp Hl. assert (Hp' := Hp). unfold pairb in Hp. apply andb_true_iff in Hp. destruct Hp as [N1 E1].
  apply negb_true_iff, Nat.eqb_neq in N1. apply Nat.eqb_eq in E1.
  assert (G : forall y z, prop k1 y = z -> prop k1 z = y -> y <> z -> In y rng -> In z rng).
  { intros y z Ey Ez Ne Hy. destruct (in_dec Nat.eq_dec z rng) as [Hz|Hz]; [exact Hz|]. exfalso.
    rewrite (prop1_out z Hz) in Ez. rewrite (prop1_in y Hy) in Ey.
    destruct (T_ok y Hy) as [E|[Ew _]]; [congruence|].
    pose proof (si_stale _ _ HSI z y Ez (not_eq_sym Ne) (in_or_app _ _ _ (or_introl Hy))). lia. }
  destruct (pair_lead H p (prop k1) (opp k1) x Hp') as [_ [[L|L] [_ L4]]].
  - rewrite L in Hl. split; [exact Hl|]. apply (G x (prop k1 x)); auto.
  - destruct (Nat.eq_dec (lead (prop k1) x) x) as [El|Nl]; [rewrite El in Hl; split; [exact Hl|apply (G x (prop k1 x)); auto]|].
    destruct (L4 Nl) as [_ El]. rewrite El in Hl. split; [|exact Hl]. apply (G (prop k1 x) x); auto.
Qed.
Lemma ptgt_cases (P : nat -> nat) (O : nat -> Z) x : ptgt P O x = x \/ ptgt P O x = P x.
Proof using.
  unfold ptgt. destruct (_ <? _); [destruct (Nat.min_spec x (P x)) as [[? ->]|[? ->]]|destruct (Nat.max_spec x (P x)) as [[? ->]|[? ->]]]; auto.
Qed.
Lemma ptgt_sym (P : nat -> nat) (O : nat -> Z) x : P (P x) = x -> ptgt P O (P x) = ptgt P O x.
Proof using. intros E. unfold ptgt. rewrite E, (Nat.min_comm (P x)), (Nat.max_comm (P x)). reflexivity. Qed.
Lemma proposals2 : proposals rng c f (prop (c2 H rng k1)) (opp (c2 H rng k1)).
Proof.
  set (P1 := prop k1). set (O1 := opp k1).
  assert (EP : prop (c2 H rng k1) = prop2 P1 O1 rng) by reflexivity.
  assert (EO : opp (c2 H rng k1) = opp2 H P1 O1 rng) by reflexivity.
  rewrite EP, EO. clear EP EO.
  assert (C2 : forall x, prop2 P1 O1 rng x = P1 x \/ prop2 P1 O1 rng x = x).
  { intros x. unfold prop2. destruct (_ && _); [|left; reflexivity]. destruct (ptgt_cases P1 O1 x) as [->| ->]; auto. }
  split.
  - intros u Hu. destruct (C2 u) as [E|E]; rewrite E; [|left; reflexivity]. apply (pr_in _ _ _ _ _ proposals1 u Hu).
  - intros x Hx. unfold prop2. destruct (pairb P1 x && mem (lead P1 x) rng) eqn:G.
    + apply andb_true_iff in G. rewrite mem_In in G. destruct (pair_in x (proj1 G) (proj2 G)). contradiction.
    + apply prop1_out. exact Hx.
  - intros t. unfold opp2. fold O1 P1.
    transitivity (O1 t - sumZ (fun u => if Nat.eqb u (P1 t) then (if pairb P1 t && mem (lead P1 t) rng && negb (Nat.eqb (ptgt P1 O1 t) t) then w u else 0) else 0) N).
    + rewrite sumZ_indicator by apply (wf_nodes H WF).
      destruct (pairb P1 t && mem (lead P1 t) rng && negb (Nat.eqb (ptgt P1 O1 t) t)) eqn:G; [|destruct (mem (P1 t) N); lia].
      apply andb_true_iff in G. destruct G as [G Nq]. apply negb_true_iff, Nat.eqb_neq in Nq. apply andb_true_iff in G. rewrite mem_In in G.
      destruct (pair_in t (proj1 G) (proj2 G)) as [Ht Hpt].
      assert (HpN : In (P1 t) N) by (apply incl_rng; exact Hpt). apply mem_In in HpN. rewrite HpN.
      destruct (ptgt_cases P1 O1 t) as [E|E]; [contradiction|]. rewrite E. reflexivity.
    + unfold O1 at 1. rewrite opp1_eq. rewrite <- Z.add_sub_assoc, <- sumZ_minus. f_equal. apply sumZ_ext. intros u Hu. fold P1.
      unfold asks. destruct (mem_spec u rng) as [Hr|Hr]; cbn [andb].
      2:{ destruct (Nat.eqb_spec u (P1 t)) as [->|]; [|lia].
          destruct (pairb P1 t && mem (lead P1 t) rng) eqn:G; [|cbn; lia]. exfalso. apply andb_true_iff in G. rewrite mem_In in G.
          destruct (pair_in t (proj1 G) (proj2 G)). contradiction. }
      unfold mv, prop2. destruct (pairb P1 u && mem (lead P1 u) rng) eqn:G.
      * (* u is in a fired pair *)
        pose proof G as G0. apply andb_true_iff in G0. destruct G0 as [Pu Lu].
        assert (Pu' := Pu). unfold pairb in Pu'. apply andb_true_iff in Pu'. destruct Pu' as [N1 E1]. apply negb_true_iff in N1.
        assert (N1' := N1). apply Nat.eqb_neq in N1'. apply Nat.eqb_eq in E1. rewrite N1. cbn [negb andb].
        destruct (Nat.eqb_spec (P1 u) t) as [Et|Nt].
        -- assert (Eu : u = P1 t) by congruence. rewrite (proj2 (Nat.eqb_eq _ _) Eu).
           assert (Pt : pairb P1 t = true) by (unfold pairb; rewrite <- Eu, Et, Nat.eqb_refl; destruct (Nat.eqb_spec u t); [congruence|reflexivity]).
           assert (Lt : lead P1 t = lead P1 u) by (unfold lead; rewrite <- Eu, Et; apply Nat.min_comm).
           rewrite Pt, Lt, Lu. cbn [andb].
           assert (Tt : ptgt P1 O1 t = ptgt P1 O1 u) by (rewrite <- Et; apply ptgt_sym; exact E1). rewrite Tt.
           destruct (ptgt_cases P1 O1 u) as [E|E]; rewrite E.
           ++ rewrite Nat.eqb_refl. cbn [negb andb]. destruct (Nat.eqb_spec u t); [congruence|]. cbn. lia.
           ++ rewrite Et, Nat.eqb_refl. rewrite Et in N1. rewrite N1. cbn. lia.
        -- destruct (Nat.eqb_spec u (P1 t)) as [Eu|Nu].
           ++ destruct (pairb P1 t && mem (lead P1 t) rng) eqn:Gt.
              ** exfalso. apply andb_true_iff in Gt. destruct Gt as [Pt _]. unfold pairb in Pt. apply andb_true_iff in Pt. destruct Pt as [_ Pt].
                 apply Nat.eqb_eq in Pt. congruence.
              ** cbn [andb]. destruct (ptgt_cases P1 O1 u) as [E|E]; rewrite E.
                 --- rewrite Nat.eqb_refl. cbn. lia.
                 --- rewrite N1. destruct (Nat.eqb_spec (P1 u) t); [contradiction|]. cbn. lia.
           ++ destruct (ptgt_cases P1 O1 u) as [E|E]; rewrite E.
              ** rewrite Nat.eqb_refl. cbn. lia.
              ** rewrite N1. destruct (Nat.eqb_spec (P1 u) t); [contradiction|]. cbn. lia.
      * (* u keeps its proposal *)
        destruct (Nat.eqb_spec u (P1 t)) as [Eu|Nu]; [|lia].
        destruct (pairb P1 t && mem (lead P1 t) rng) eqn:Gt; [|cbn; lia]. exfalso.
        apply andb_true_iff in Gt. destruct Gt as [Pt Lt]. unfold pairb in Pt. apply andb_true_iff in Pt. destruct Pt as [Nt Et].
        apply negb_true_iff in Nt. apply Nat.eqb_neq in Nt. apply Nat.eqb_eq in Et.
        assert (Pu : pairb P1 u = true) by (unfold pairb; rewrite Eu, Et, Nat.eqb_refl; destruct (Nat.eqb_spec t (P1 t)); [congruence|reflexivity]).
        assert (Lu : lead P1 u = lead P1 t) by (unfold lead; rewrite Eu, Et; apply Nat.min_comm).
        rewrite Pu, Lu, Lt in G. discriminate.
Qed.
End Sub.
End Det.
