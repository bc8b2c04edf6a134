(** DetLPTotal.v - deterministic label propagation runs to completion from every complete partition, and one sub-round computes a
    sequential function of the partition. *)
From Coq Require Import FunctionalExtensionality.
From Verif Require RBExamples RB.
From Verif Require Import Base Spec SpecLemmas PHG PHGProofs Fixed Conc ConcProofs ConcMore ConcRun ConcProgress Objective GainCache Metrics PropsA Scan Revert ParLoop DetCoarseThms Prefixes DetLP DetLPApply DetLP1 DetLP2 DetLPThms DetLPRun.

(** Sorting the moves. *)
Definition lleb (a b : lmv) : bool := (lgain b <? lgain a) || ((lgain a =? lgain b) && Nat.leb (ln a) (ln b)).
Fixpoint lins (m : lmv) (l : list lmv) : list lmv := match l with [] => [m] | a :: r => if lleb m a then m :: l else a :: lins m r end.
Fixpoint lsort (l : list lmv) : list lmv := match l with [] => [] | m :: r => lins m (lsort r) end.
Lemma lins_perm m l : Permutation (m :: l) (lins m l).
Proof. induction l as [|a l IH]; cbn; [reflexivity|]. destruct (lleb m a); [reflexivity|]. rewrite perm_swap. constructor. exact IH. Qed.
Lemma lsort_perm l : Permutation l (lsort l).
Proof. induction l as [|m l IH]; cbn; [constructor|]. rewrite <- lins_perm. constructor. exact IH. Qed.
Lemma lleb_before a b : ln a <> ln b -> lleb a b = true -> lbefore a b.
Proof. unfold lleb, lbefore. rewrite orb_true_iff, andb_true_iff, Z.ltb_lt, Z.eqb_eq, Nat.leb_le. lia. Qed.
Lemma lleb_false a b : lleb a b = false -> lbefore b a.
Proof. unfold lleb, lbefore. rewrite orb_false_iff, andb_false_iff, Z.ltb_ge, Z.eqb_neq, Nat.leb_gt. lia. Qed.
Lemma lbefore_trans a b c : lbefore a b -> lbefore b c -> lbefore a c.
Proof. unfold lbefore. lia. Qed.
Lemma lins_sorted m : forall l, StronglySorted lbefore l -> (forall a, In a l -> ln m <> ln a) -> StronglySorted lbefore (lins m l).
Proof.
  induction l as [|a l IH]; intros S N; cbn; [constructor; [constructor|constructor]|]. inversion S as [|? ? S' F]; subst.
  destruct (lleb m a) eqn:E.
  - constructor; [exact S|]. apply lleb_before in E; [|apply N; left; reflexivity]. constructor; [exact E|].
    eapply Forall_impl; [|exact F]. intros b Hb. eapply lbefore_trans; eassumption.
  - constructor; [apply IH; [exact S'|intros b Hb; apply N; right; exact Hb]|]. apply Forall_forall. intros b Hb.
    apply (Permutation_in b (Permutation_sym (lins_perm m l))) in Hb. destruct Hb as [<-|Hb]; [apply lleb_false; exact E|]. rewrite Forall_forall in F. apply F. exact Hb.
Qed.
Lemma lsort_sorted l : NoDup (map ln l) -> sorted_of l (lsort l).
Proof.
  intros N. split; [apply lsort_perm|]. induction l as [|m l IH]; cbn; [constructor|]. cbn [map] in N. inversion N as [|? ? Nm N']; subst.
  apply lins_sorted; [apply IH; exact N'|]. intros a Ha X. apply Nm. rewrite X. apply in_map. apply (Permutation_in a (Permutation_sym (lsort_perm l)) Ha).
Qed.

(** Every parallel loop whose iterations make finitely many steps can be executed. *)
Lemma par_total {L S} (step : L -> S -> option (L * S)) (cost : L -> nat) : (forall l s l' s', step l s = Some (l', s') -> (cost l' < cost l)%nat) ->
  forall n ls s, (list_sum (map cost ls) < n)%nat -> exists s', par step ls s s'.
Proof.
  intros D. induction n as [|n IH]; intros ls s Hn; [lia|].
  assert (X : Forall (fun l => step l s = None) ls \/ exists a l b l' s', ls = a ++ l :: b /\ step l s = Some (l', s')).
  { clear Hn. induction ls as [|l ls IHl]; [left; constructor|]. destruct (step l s) as [[l' s']|] eqn:E; [right; exists [], l, ls, l', s'; auto|].
    destruct IHl as [F|(a & x & b & l' & s' & -> & Ex)]; [left; constructor; assumption|]. right. exists (l :: a), x, b, l', s'. auto. }
  destruct X as [F|(a & l & b & l' & s' & -> & E)]; [exists s; apply par_done; exact F|].
  destruct (IH (a ++ l' :: b) s') as [t T].
  - pose proof (D l s l' s' E). rewrite map_app, list_sum_app in *. cbn [map list_sum fold_right] in *. change (fold_right Nat.add 0%nat) with list_sum in *. lia.
  - exists t. eapply par_step; eassumption.
Qed.
Definition ecst (H : hypergraph) (es : list nat) : nat := list_sum (map (fun e => 5 + 2 * length (pins H e))%nat es).
Definition acost (H : hypergraph) (l : apc) : nat :=
  match l with AEdge es => ecst H es | AStore e es => 3 + 2 * length (pins H e) + ecst H es | APins vs es => 1 + 2 * length vs + ecst H es | ACas _ vs es => 2 + 2 * length vs + ecst H es end%nat.
Lemma acost_dec H thr l a l' a' : astep H thr l a = Some (l', a') -> (acost H l' < acost H l)%nat.
Proof.
  destruct l as [[|e es]|e es|[|v vs] es|v vs es]; cbn [astep]; intros E; inversion E; subst; clear E; cbn [acost length]; try (unfold ecst; cbn [map list_sum fold_right]; change (fold_right Nat.add 0%nat) with list_sum; lia).
  - destruct (_ && _); cbn [acost]; unfold ecst; cbn [map list_sum fold_right]; change (fold_right Nat.add 0%nat) with list_sum; lia.
  - destruct (vm a' v); cbn [acost]; lia.
Qed.
Lemma activate_total H thr : forall bs a, exists a', activate H thr bs a a'.
Proof.
  induction bs as [|b bs IH]; intros a; cbn [activate]; [exists a; reflexivity|].
  destruct (par_total (astep H thr) (acost H) (acost_dec H thr) _ (map (fun m => AEdge (inc H (ln m))) b) a (Nat.lt_succ_diag_r _)) as [a1 A1].
  destruct (IH a1) as [a' A']. exists a', a1. split; assumption.
Qed.

Section Total.
Variables (H : hypergraph) (k : nat) (L : nat -> Z) (fixed : nat -> bool) (cand : partition -> nat -> option (nat * Z)) (o : objective).
Hypothesis Wn : forall v, 0 <= nw H v.
Hypothesis Wt : total_weight H <= MAXW.
Hypothesis LM : forall b, (b < k)%nat -> L b <= MAXW.
Hypothesis CK : forall P u to g, cand P u = Some (to, g) -> (to < k)%nat.
Local Notation ready := (ready H k).
Lemma apply_total ms s : ready s -> legal H k (part s) ms -> exists s' g, apply_all H o ms s s' g.
Proof.
  intros [ST Ek] LG.
  destruct (RBExamples.seq_moves H s ex_cache ST (map tomv ms) [] (cinit s ex_cache)) as (l & st & E & Q & B).
  - reflexivity.
  - intros i Hi. reflexivity.
  - rewrite map_map. cbn. apply (lg_nodup _ _ _ _ LG).
  - intros m Hm. apply in_map_iff in Hm. destruct Hm as (x & <- & Hx). cbn. split; [apply (lg_node _ _ _ _ LG x Hx)|]. split; [apply (lg_from _ _ _ _ LG x Hx)|].
    split; [apply (lg_ne _ _ _ _ LG x Hx)|]. rewrite Ek. apply (lg_to _ _ _ _ LG x Hx).
  - exists (sh st), (- sumZ (gain_of o) (log st)). exists 1%nat, RB.no_mops, ex_cache, l, st. rewrite B. auto.
Qed.
Lemma aor_total ms s : ready s -> legal H k (part s) ms -> exists s' g rev, apply_or_revert H o ms s s' g rev.
Proof.
  intros RD LG. destruct (apply_total ms s RD LG) as (s1 & g1 & A1). pose proof RD as [ST Ek].
  destruct (apply_ok H k o (fun v _ => Wn v) Wt ms s s1 g1 ST Ek LG A1) as (S1 & K1 & P1 & _).
  destruct (g1 <? 0) eqn:E.
  - assert (LS : legal H k (part s1) (map lswap ms)).
    { rewrite P1. apply legal_swap; [|exact LG]. pose proof ST as (_ & _ & HC). intros v Hv. destruct (HC v Hv) as [b X]. exists b. rewrite <- Ek. exact X. }
    destruct (apply_total (map lswap ms) s1 (conj S1 K1) LS) as (s2 & g2 & A2). exists s2, (g1 + g2), true, s1, g1. rewrite E. split; [exact A1|]. split; [reflexivity|]. exists g2. auto.
  - exists s1, g1, false, s1, g1. rewrite E. auto.
Qed.
(** The sequential function computed by a sub-round. *)
Definition pwf (P : partition) (b : nat) : Z := if Nat.ltb b k then block_weight H P b else 0.
Definition aor_fun (ms : list lmv) (P : partition) : partition * Z * bool :=
  let P1 := after P ms in let worse := obj_spec o H P <? obj_spec o H P1 in
  if worse then (P, 0, true) else (P1, obj_spec o H P - obj_spec o H P1, false).
Definition dirs_fun (ms : list lmv) (p q : nat) : list lmv := lsort (filter (fun m => Nat.eqb (lfrom m) p && Nat.eqb (lto m) q) ms).
Definition sub_fun (fuel : nat) (rng : list nat) (P : partition) : option (partition * Z * bool * nat * list (list lmv)) :=
  let ms := cands fixed cand P rng in
  if isnil ms then Some (P, 0, false, 0%nat, [])
  else
    let A := applied H k L (dirs_fun ms) (pwf P) in let R := leftover H k L (dirs_fun ms) (pwf P) in
    let '(P1, g1, rev) := aor_fun A P in
    if (0 <? g1) && negb (isnil R) then
      match keep H k L fuel (lsort R) (pwf P1) with
      | None => None
      | Some val => let V := valid_moves (lsort R) val in let '(P2, g2, rev2) := aor_fun V P1 in
                    Some (P2, g1 + g2, rev, length ms, batches A rev ++ batches V rev2)
      end
    else Some (P1, g1, rev, length ms, batches A rev).
Lemma sub_fun_unique f f' rng P r r' : sub_fun f rng P = Some r -> sub_fun f' rng P = Some r' -> r = r'.
Proof.
  unfold sub_fun. destruct (isnil (cands fixed cand P rng)); [congruence|]. destruct (aor_fun _ P) as [[P1 g1] rev].
  destruct ((0 <? g1) && _); [|congruence]. set (sm := lsort _).
  destruct (keep H k L f sm (pwf P1)) as [v|] eqn:E1; [|discriminate]. destruct (keep H k L f' sm (pwf P1)) as [v'|] eqn:E2; [|discriminate].
  pose proof (keep_unique _ _ _ _ _ _ _ _ _ E1 E2). subst v'. congruence.
Qed.
Lemma aor_fun_ok ms s s' g rev : ready s -> legal H k (part s) ms -> apply_or_revert H o ms s s' g rev -> aor_fun ms (part s) = (part s', g, rev).
Proof.
  intros RD LG A. destruct (aor_ok H k o Wn Wt ms s s' g rev RD LG A) as (_ & _ & G & V & P). unfold aor_fun. rewrite <- V. rewrite G, P. destruct rev; [|reflexivity].
  rewrite Z.sub_diag. reflexivity.
Qed.
Lemma pwf_ok s : ready s -> pwf (part s) = pws k s.
Proof.
  intros RD. apply functional_extensionality. intros b. unfold pwf. destruct (Nat.ltb_spec b k) as [Hb|Hb].
  - symmetry. apply (pws_eq H k L fixed cand Wn LM CK); assumption.
  - unfold pws. destruct (Nat.ltb_spec b k); [lia|reflexivity].
Qed.
Theorem sub_total rng s : ready s -> range_ok H rng -> exists fuel s' g rev nm moved,
  lp_sub H k L fixed cand o rng s s' g rev nm moved /\ sub_fun fuel rng (part s) = Some (part s', g, rev, nm, moved).
Proof.
  intros RD RG. set (ms := cands fixed cand (part s) rng).
  destruct (cands_legal H k fixed cand CK s rng ms RD RG (Permutation_refl _)) as [LG FX]. assert (FR : forall m, In m ms -> (lfrom m < k)%nat) by (intros m Hm; apply (FX m Hm)).
  destruct (isnil ms) eqn:EN.
  { exists 0%nat, s, 0, false, (length ms), []. split.
    - exists ms. split; [reflexivity|]. split; [reflexivity|]. rewrite EN. auto.
    - unfold sub_fun. fold ms. rewrite EN. destruct ms; [reflexivity|discriminate]. }
  set (A := applied H k L (dirs_fun ms) (pwf (part s))). set (R := leftover H k L (dirs_fun ms) (pwf (part s))).
  assert (DK : dirs_ok k ms (dirs_fun ms)).
  { intros p q Hp Hq. apply lsort_sorted. pose proof (lg_nodup _ _ _ _ LG) as N. clear -N. induction ms as [|m ms IH]; cbn; [constructor|]. cbn [map] in N. inversion N as [|? ? Nm N']; subst.
    destruct (_ && _); [|apply IH; exact N']. cbn. constructor; [|apply IH; exact N']. intros X. apply Nm. apply in_map_iff in X. destruct X as (y & <- & Hy). apply filter_In in Hy. apply in_map. tauto. }
  pose proof (applied_legal H k L Wn ms (dirs_fun ms) (pwf (part s)) (part s) LG FR DK) as LA. fold A in LA.
  destruct (aor_total A s RD LA) as (s1 & g1 & rev & AR).
  assert (S1 : stage1 H k L o ms s s1 g1 rev A R) by (exists (dirs_fun ms); unfold A, R; rewrite (pwf_ok s RD); split; [exact DK|]; split; [reflexivity|]; split; [reflexivity|]; rewrite <- (pwf_ok s RD); exact AR).
  destruct (stage1_ok H k L fixed cand o Wn Wt LM CK ms s s1 g1 rev A R RD LG FR S1) as (R1 & _ & _ & _ & _ & L1 & I1).
  pose proof (aor_fun_ok A s s1 g1 rev RD LA AR) as F1.
  destruct ((0 <? g1) && negb (isnil R)) eqn:C.
  - assert (SO : sorted_of R (lsort R)) by (apply lsort_sorted, (lg_nodup _ _ _ _ L1)).
    pose proof (legal_perm H k (part s1) R (lsort R) (lsort_perm R) L1) as LS.
    assert (MK : forall m, In m (lsort R) -> (lfrom m < k)%nat /\ (lto m < k)%nat /\ lfrom m <> lto m).
    { intros m Hm. split; [apply FR, I1; right; apply (Permutation_in m (Permutation_sym (lsort_perm R)) Hm)|]. split; [apply (lg_to _ _ _ _ LS m Hm)|apply (lg_ne _ _ _ _ LS m Hm)]. }
    destruct (keep_total H k L Wn (lsort R) (pws k s1) MK) as (fuel & val & KP).
    pose proof (valid_legal H k (part s1) (lsort R) val LS) as LV.
    destruct (aor_total (valid_moves (lsort R) val) s1 R1 LV) as (s2 & g2 & rev2 & AR2).
    exists fuel, s2, (g1 + g2), rev, (length ms), (batches A rev ++ batches (valid_moves (lsort R) val) rev2). split.
    + exists ms. split; [reflexivity|]. split; [reflexivity|]. rewrite EN. exists s1, g1, A, R. split; [exact S1|]. rewrite C. exists R, g2, rev2, (valid_moves (lsort R) val).
      split; [reflexivity|]. split; [|auto]. exists (lsort R), fuel, val. auto.
    + unfold sub_fun. fold ms. rewrite EN. fold A R. rewrite F1, C, (pwf_ok s1 R1), KP, (aor_fun_ok _ s1 s2 g2 rev2 R1 LV AR2). reflexivity.
  - exists 0%nat, s1, g1, rev, (length ms), (batches A rev). split.
    + exists ms. split; [reflexivity|]. split; [reflexivity|]. rewrite EN. exists s1, g1, A, R. split; [exact S1|]. rewrite C. auto.
    + unfold sub_fun. fold ms. rewrite EN. fold A R. rewrite F1, C. reflexivity.
Qed.
Variables (thr : nat) (useact : bool) (ranges : nat -> list nat -> nat -> list (list nat)).
Hypothesis RO : forall it ac n rng, NoDup ac -> incl ac (nodes H) -> In rng (ranges it ac n) -> range_ok H rng.
Lemma subs_total : forall rs s a, (forall rng, In rng rs -> range_ok H rng) -> ready s -> exists s' a' g rev nm, lp_subs H k L fixed cand o thr rs s a s' a' g rev nm.
Proof.
  induction rs as [|rng rs IH]; intros s a RG RD; [exists s, a, 0, false, 0%nat; constructor|].
  destruct (sub_total rng s RD (RG rng (or_introl eq_refl))) as (f & s1 & g1 & r1 & n1 & mv & S1 & _).
  destruct (sub_ok H k L fixed cand o Wn Wt LM CK rng s s1 g1 r1 n1 mv RD (RG rng (or_introl eq_refl)) S1) as (R1 & _).
  destruct (activate_total H thr mv a) as [a1 A1]. destruct (IH s1 a1 (fun r Hr => RG r (or_intror Hr)) R1) as (s2 & a2 & g2 & r2 & n2 & S2).
  do 5 eexists. eapply subs_cons; eassumption.
Qed.
Fixpoint nins (x : nat) (l : list nat) : list nat := match l with [] => [x] | a :: r => if Nat.leb x a then x :: l else a :: nins x r end.
Fixpoint nsorts (l : list nat) : list nat := match l with [] => [] | a :: r => nins a (nsorts r) end.
Lemma nins_perm x l : Permutation (x :: l) (nins x l).
Proof. induction l as [|a l IH]; cbn; [reflexivity|]. destruct (Nat.leb x a); [reflexivity|]. rewrite perm_swap. constructor. exact IH. Qed.
Lemma nsorts_perm l : Permutation l (nsorts l).
Proof. induction l as [|a l IH]; cbn; [constructor|]. rewrite <- nins_perm. constructor. exact IH. Qed.
Lemma nsorts_sorted l : StronglySorted le (nsorts l).
Proof.
  induction l as [|a l IH]; cbn; [constructor|]. revert IH. generalize (nsorts l). clear. intros q S. induction S as [|b q S IH F]; cbn; [constructor; constructor|].
  destruct (Nat.leb_spec a b) as [Hab|Hab].
  - constructor; [constructor; assumption|]. constructor; [exact Hab|]. eapply Forall_impl; [|exact F]. cbn. lia.
  - constructor; [exact IH|]. apply Forall_forall. intros x Hx. apply (Permutation_in x (Permutation_sym (nins_perm a q))) in Hx. rewrite Forall_forall in F.
    destruct Hx as [<-|Hx]; [lia|apply F, Hx].
Qed.
Theorem iters_total : forall r it n ac s, NoDup ac -> incl ac (nodes H) -> ready s -> exists s' g, lp_iters H k L fixed cand o thr useact ranges r it n ac s s' g.
Proof.
  induction r as [|r IH]; intros it n ac s N I RD; [exists s, 0; constructor|].
  pose proof (rng_ok H useact ranges RO it ac (nsorts ac) n (nsorts_perm ac) N I) as RG.
  destruct (subs_total _ s act0 RG RD) as (s1 & a & g1 & rev & nm & X).
  destruct (subs_ok H k L fixed cand o thr ranges Wn Wt LM CK RO _ _ _ _ _ _ _ _ X RG RD (closed0 H) (once0 H)) as (R1 & _ & O & _).
  destruct nm as [|nm].
  - exists s1, g1. eapply it_stop; [apply nsorts_perm|apply nsorts_sorted|exact X].
  - set (ac' := filter (vm a) (nodes H)).
    assert (C : forall v, count_occ Nat.eq_dec ac' v = aq a v).
    { intros v. destruct O as [O1 O2]. rewrite O1. pose proof RD as [(WF & _) _].
      assert (N' : NoDup ac') by (apply NoDup_filter, (wf_nodes H WF)). destruct (vm a v) eqn:E.
      - apply NoDup_count_occ'; [exact N'|]. apply filter_In. auto.
      - apply count_occ_not_In. intros X'. apply filter_In in X'. destruct X'. congruence. }
    destruct (act_list H k L fixed cand ranges Wn LM CK RO a ac' O C) as [N' I'].
    destruct (IH (S it) (if rev then Nat.min 256 (n * 2) else n) ac' s1 N' I' R1) as (s2 & g2 & Y).
    exists s2, (g1 + g2). eapply it_next; [apply nsorts_perm|apply nsorts_sorted|exact X|discriminate|exact C|exact Y].
Qed.
End Total.
