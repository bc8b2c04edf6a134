(** DetLP1.v - deterministic label propagation: the first stage keeps the partition balanced. *)
From Verif Require Import Base Spec SpecLemmas PHG PHGProofs Conc ConcProofs Objective GainCache Metrics PropsA Scan Revert Construct Prefixes DetLP DetLPApply.

Lemma nodup_prod {A B} (l : list A) (l' : list B) : NoDup l -> NoDup l' -> NoDup (list_prod l l').
Proof.
  intros N N'. induction N as [|a l Ha N IH]; cbn; [constructor|].
  assert (X : forall p, In p (map (fun y => (a, y)) l') -> ~ In p (list_prod l l')).
  { intros p Hp Hq. apply in_map_iff in Hp. destruct Hp as (y & <- & _). apply in_prod_iff in Hq. tauto. }
  assert (N1 : NoDup (map (fun y => (a, y)) l')) by (apply FinFun.Injective_map_NoDup; [intros x y E; congruence|exact N']).
  revert N1 X. generalize (map (fun y => (a, y)) l'). intros q. induction q as [|p q IHq]; intros N1 X; cbn; [exact IH|].
  inversion N1; subst. constructor.
  - rewrite in_app_iff. intros [Y|Y]; [contradiction|]. apply (X p); [left; reflexivity|exact Y].
  - apply IHq; [assumption|]. intros r Hr. apply X. right. exact Hr.
Qed.
(** Grouping a list by the classes of its members permutes it. *)
Lemma groups_perm {A B} (f : B -> A -> bool) (xs : list B) : NoDup xs -> forall l : list A,
  (forall a, In a l -> exists x, In x xs /\ f x a = true /\ forall y, In y xs -> f y a = true -> y = x) ->
  Permutation (flat_map (fun x => filter (f x) l) xs) l.
Proof.
  intros N. induction l as [|a l IH]; intros Hl.
  - clear. induction xs as [|x xs IH]; cbn; [constructor|exact IH].
  - destruct (Hl a (or_introl eq_refl)) as (x & Hx & Fx & Ux). apply in_split in Hx. destruct Hx as (x1 & x2 & ->).
    assert (E : forall q, (forall y, In y q -> In y (x1 ++ x2)) -> flat_map (fun y => filter (f y) (a :: l)) q = flat_map (fun y => filter (f y) l) q).
    { intros q Hq. induction q as [|y q IHq]; [reflexivity|]. cbn [flat_map]. rewrite IHq by (intros z Hz; apply Hq; right; exact Hz). cbn [filter].
      destruct (f y a) eqn:F; [|reflexivity]. exfalso. pose proof (NoDup_remove_2 _ _ _ N) as NR. apply NR.
      rewrite <- (Ux y); [apply Hq; left; reflexivity| |exact F]. specialize (Hq y (or_introl eq_refl)). rewrite in_app_iff in *. cbn. tauto. }
    rewrite flat_map_app. cbn [flat_map]. rewrite (E x1), (E x2) by (intros; rewrite in_app_iff; tauto). cbn [filter]. rewrite Fx.
    rewrite <- app_comm_cons. rewrite <- Permutation_middle. constructor.
    etransitivity; [|apply IH; intros b Hb; apply Hl; right; exact Hb]. rewrite flat_map_app. reflexivity.
Qed.
Lemma flat_map_perm {A B} (f g : A -> list B) l : (forall x, In x l -> Permutation (f x) (g x)) -> Permutation (flat_map f l) (flat_map g l).
Proof. induction l as [|a l IH]; intros E; cbn; [constructor|]. apply Permutation_app; [apply E; left; reflexivity|apply IH; intros x Hx; apply E; right; exact Hx]. Qed.
Lemma flat_map_split {A B} (f g : A -> list B) l : Permutation (flat_map (fun x => f x ++ g x) l) (flat_map f l ++ flat_map g l).
Proof.
  induction l as [|a l IH]; cbn; [constructor|]. rewrite IH. rewrite <- !app_assoc. apply Permutation_app_head. rewrite !app_assoc. apply Permutation_app_tail. apply Permutation_app_comm.
Qed.
(** The slack per involvement. *)
Lemma to32_small x : 0 <= x < 2^31 -> to32 x = x.
Proof. intros Hx. unfold to32. rewrite Z.mod_small; lia. Qed.
Lemma div_small b m : 0 <= b < 2^31 -> 1 <= m -> 0 <= b / m < 2^31.
Proof. intros Hb Hm. split; [apply Z.div_pos; lia|]. apply Z.le_lt_trans with b; [|lia]. apply Z.div_le_upper_bound; nia. Qed.
Lemma ubound_ok b i : 0 <= b < 2^31 -> ubound b i = b / Z.max 1 i.
Proof. intros Hb. unfold ubound, divu. rewrite (Z.mod_small b) by lia. apply to32_small, div_small; lia. Qed.
Lemma lbound_ok b i : 0 <= b < 2^31 -> lbound b i = - (b / Z.max 1 i).
Proof.
  intros Hb. unfold lbound, divu. rewrite (Z.mod_small b) by lia. pose proof (div_small b (Z.max 1 i) Hb ltac:(lia)) as D. set (d := b / Z.max 1 i) in *. clearbody d.
  destruct (Z.eq_dec d 0) as [->|Nd]; [reflexivity|].
  assert (EM : (- d) mod 2^64 = 2^64 - d) by (rewrite <- (Z.mod_small (2^64 - d) (2^64)) by lia; replace (2^64 - d) with (- d + 1 * 2^64) by lia; rewrite Z.mod_add by lia; reflexivity).
  rewrite EM. unfold to32.
  replace (2^64 - d + 2^31) with ((2^31 - d) + 2^32 * 2^32) by lia. rewrite Z.mod_add by lia. rewrite Z.mod_small; lia.
Qed.

Lemma cw_mono H : (forall v, 0 <= nw H v) -> forall l i j, (i <= j)%nat -> cw H l i <= cw H l j.
Proof.
  intros Wn l i j Hij. unfold cw. rewrite <- (firstn_skipn i (firstn j l)). rewrite firstn_firstn, Nat.min_l by lia. rewrite sumZ_app.
  pose proof (sumZ_nonneg (fun m => nw H (ln m)) (skipn i (firstn j l)) ltac:(intros; apply Wn)). lia.
Qed.
Lemma cw_nil H e : cw H [] e = 0.
Proof. unfold cw. rewrite firstn_nil. reflexivity. Qed.
Section Stage1.
Variables (H : hypergraph) (k : nat) (L : nat -> Z).
Hypothesis Wn : forall v, 0 <= nw H v.
Variables (ms : list lmv) (dirs : nat -> nat -> list lmv) (pw : nat -> Z) (P : partition).
Hypothesis LG : legal H k P ms.
Hypothesis FR : forall m, In m ms -> (lfrom m < k)%nat.
Hypothesis DK : dirs_ok k ms dirs.
Local Notation sp := (swap_prefix H k L dirs pw).

Lemma dirs_in p q m : (p < k)%nat -> (q < k)%nat -> In m (dirs p q) <-> In m ms /\ lfrom m = p /\ lto m = q.
Proof using L pw Wn LG FR DK.
  intros Hp Hq. destruct (DK p q Hp Hq) as [PM _]. split; intros X.
  - apply (Permutation_in m (Permutation_sym PM)) in X. apply filter_In in X. rewrite andb_true_iff, !Nat.eqb_eq in X. tauto.
  - apply (Permutation_in m PM). apply filter_In. rewrite andb_true_iff, !Nat.eqb_eq. tauto.
Qed.
Lemma all_perm : Permutation (applied H k L dirs pw ++ leftover H k L dirs pw) ms.
Proof using L pw Wn LG FR DK.
  unfold applied, leftover. rewrite <- flat_map_split.
  etransitivity; [apply flat_map_perm with (g := fun pq => filter (fun m => Nat.eqb (lfrom m) (fst pq) && Nat.eqb (lto m) (snd pq)) ms)|].
  - intros [p q] Hpq. apply in_prod_iff in Hpq. rewrite !in_seq in Hpq. cbn [fst snd]. rewrite firstn_skipn. apply Permutation_sym. apply (DK p q); lia.
  - apply (groups_perm (fun pq m => Nat.eqb (lfrom m) (fst pq) && Nat.eqb (lto m) (snd pq))); [apply nodup_prod; apply seq_NoDup|].
    intros m Hm. exists (lfrom m, lto m). pose proof (FR m Hm). pose proof (lg_to _ _ _ _ LG m Hm).
    split; [apply in_prod_iff; rewrite !in_seq; lia|]. cbn [fst snd]. rewrite !Nat.eqb_refl. split; [reflexivity|].
    intros [p q] _. cbn [fst snd]. rewrite andb_true_iff, !Nat.eqb_eq. intros [-> ->]. reflexivity.
Qed.
Lemma applied_legal : legal H k P (applied H k L dirs pw).
Proof using L pw Wn LG FR DK.
  pose proof all_perm as AP. apply (legal_sub H k P ms); [|intros m Hm; apply (Permutation_in m AP); apply in_app_iff; tauto|exact LG].
  pose proof (Permutation_NoDup (Permutation_map ln (Permutation_sym AP)) (lg_nodup _ _ _ _ LG)) as N. rewrite map_app in N.
  clear -N. revert N. generalize (map ln (leftover H k L dirs pw)). generalize (map ln (applied H k L dirs pw)). intros a r N.
  induction a as [|x a IH]; [constructor|]. cbn in N. inversion N as [|? ? N1 N2]; subst. constructor; [intros X; apply N1; apply in_app_iff; tauto|apply IH; exact N2].
Qed.
Lemma leftover_legal : legal H k P (leftover H k L dirs pw) /\ legal H k (after P (applied H k L dirs pw)) (leftover H k L dirs pw).
Proof using L pw Wn LG FR DK.
  pose proof all_perm as AP.
  pose proof (Permutation_NoDup (Permutation_map ln (Permutation_sym AP)) (lg_nodup _ _ _ _ LG)) as N. rewrite map_app in N.
  assert (L0 : legal H k P (leftover H k L dirs pw)).
  { apply (legal_sub H k P ms); [|intros m Hm; apply (Permutation_in m AP); apply in_app_iff; tauto|exact LG].
    clear -N. revert N. generalize (map ln (applied H k L dirs pw)). intros a N. induction a as [|x a IH]; [exact N|]. inversion N; subst. apply IH. assumption. }
  split; [exact L0|]. destruct L0 as [A B C D E]. constructor; try assumption.
  intros m Hm. rewrite after_out; [apply C; exact Hm|]. intros X. apply in_split in X. destruct X as (x1 & x2 & EX). rewrite EX in N. rewrite <- app_assoc in N. cbn in N.
  apply NoDup_remove_2 in N. apply N. rewrite !in_app_iff. right. right. apply in_map. exact Hm.
Qed.

Hypothesis BD : forall b, (b < k)%nat -> 0 <= L b - pw b < 2^31.
Lemma inv_nonneg b : 0 <= involvements k dirs b.
Proof using. apply Nat2Z.is_nonneg. Qed.
Lemma pair_ok p1 p2 : (p1 < k)%nat -> (p2 < k)%nat -> let '(x, y) := best_prefix H k L dirs pw p1 p2 in
  (x <= length (dirs p1 p2))%nat /\ (y <= length (dirs p2 p1))%nat /\
  - ((L p1 - pw p1) / Z.max 1 (involvements k dirs p1)) <= cw H (dirs p1 p2) x - cw H (dirs p2 p1) y <= (L p2 - pw p2) / Z.max 1 (involvements k dirs p2).
Proof using Wn LG FR DK BD.
  intros H1 H2. unfold best_prefix. rewrite lbound_ok, ubound_ok by (apply BD; assumption).
  set (lb := - ((L p1 - pw p1) / _)). set (ub := (L p2 - pw p2) / _).
  assert (LB : lb <= 0). { pose proof (div_small _ (Z.max 1 (involvements k dirs p1)) (BD p1 H1) ltac:(lia)). unfold lb. lia. }
  assert (UB : 0 <= ub). { pose proof (div_small _ (Z.max 1 (involvements k dirs p2)) (BD p2 H2) ltac:(lia)). unfold ub. lia. }
  assert (M1 : forall i j, (i <= j)%nat -> cw H (dirs p1 p2) i <= cw H (dirs p1 p2) j) by (intros; apply cw_mono; assumption).
  assert (M2 : forall i j, (i <= j)%nat -> cw H (dirs p2 p1) i <= cw H (dirs p2 p1) j) by (intros; apply cw_mono; assumption).
  rewrite recf_seqs; try assumption; try lia.
  destruct (seqs _ _ _ _ 0 _ 0 _) as [[x y]|] eqn:E.
  - apply seqs_some with (n := (length (dirs p1 p2) + length (dirs p2 p1))%nat) in E; try assumption; try lia.
    destruct E as (E1 & E2 & E3 & _). apply feas_spec in E3. unfold bal in E3. lia.
  - exfalso. revert E. apply seqs_found with (n := (length (dirs p1 p2) + length (dirs p2 p1))%nat); try assumption; try lia.
    apply feas_spec. unfold bal, cw. cbn. lia.
Qed.
(** The moves between b and q bring at most the share of the budget into b. *)
Lemma share b q : (b < k)%nat -> (q < k)%nat -> q <> b ->
  cw H (dirs q b) (sp q b) - cw H (dirs b q) (sp b q) <= (if isnil (dirs q b) then 0 else (L b - pw b) / Z.max 1 (involvements k dirs b)).
Proof using Wn LG FR DK BD.
  intros Hb Hq Ne. destruct (dirs q b) as [|m0 rest] eqn:ED; cbn [isnil].
  - rewrite cw_nil. pose proof (cw_mono H Wn (dirs b q) 0 (sp b q) ltac:(lia)). unfold cw in *. cbn in *. lia.
  - rewrite <- ED. clear ED. unfold swap_prefix. destruct (Nat.ltb_spec q b), (Nat.ltb_spec b q); try lia.
    + pose proof (pair_ok q b Hq Hb) as PO. destruct (best_prefix H k L dirs pw q b) as [x y]. cbn [fst snd]. lia.
    + pose proof (pair_ok b q Hb Hq) as PO. destruct (best_prefix H k L dirs pw b q) as [x y]. cbn [fst snd]. lia.
Qed.
Lemma delta_dir p q e b : (p < k)%nat -> (q < k)%nat -> delta H (firstn e (dirs p q)) b = (if Nat.eqb q b then cw H (dirs p q) e else 0) - (if Nat.eqb p b then cw H (dirs p q) e else 0).
Proof using Wn LG FR DK BD.
  intros Hp Hq. unfold delta, cw.
  assert (F : forall m, In m (firstn e (dirs p q)) -> lfrom m = p /\ lto m = q).
  { intros m Hm. assert (X : In m (dirs p q)) by (rewrite <- (firstn_skipn e); apply in_app_iff; left; exact Hm). apply dirs_in in X; tauto. }
  rewrite sumZ_minus. f_equal.
  - destruct (Nat.eqb_spec q b) as [Eq|Ne]; [apply sumZ_ext|apply sumZ_zero]; intros m Hm; destruct (F m Hm) as [_ ->]; destruct (Nat.eqb_spec q b); congruence.
  - destruct (Nat.eqb_spec p b) as [Eq|Ne]; [apply sumZ_ext|apply sumZ_zero]; intros m Hm; destruct (F m Hm) as [-> _]; destruct (Nat.eqb_spec p b); congruence.
Qed.
Lemma sumZ_prod {A B} (f : A -> B -> Z) l l' : sumZ (fun pq => f (fst pq) (snd pq)) (list_prod l l') = sumZ (fun p => sumZ (f p) l') l.
Proof using. induction l as [|a l IH]; [reflexivity|]. cbn [list_prod sumZ]. rewrite sumZ_app, sumZ_map, IH. reflexivity. Qed.
Lemma delta_applied b : (b < k)%nat -> delta H (applied H k L dirs pw) b = sumZ (fun q => cw H (dirs q b) (sp q b) - cw H (dirs b q) (sp b q)) (seq 0 k).
Proof using Wn LG FR DK BD.
  intros Hb. unfold delta at 1, applied. rewrite sumZ_flat_map.
  etransitivity; [apply sumZ_ext with (g := fun pq => (fun p q => (if Nat.eqb q b then cw H (dirs p q) (sp p q) else 0) - (if Nat.eqb p b then cw H (dirs p q) (sp p q) else 0)) (fst pq) (snd pq))|].
  { intros [p q] Hpq. apply in_prod_iff in Hpq. rewrite !in_seq in Hpq. cbn [fst snd]. apply (delta_dir p q (sp p q) b); lia. }
  rewrite (sumZ_prod (fun p q => (if Nat.eqb q b then cw H (dirs p q) (sp p q) else 0) - (if Nat.eqb p b then cw H (dirs p q) (sp p q) else 0)) (seq 0 k) (seq 0 k)).
  etransitivity; [apply sumZ_ext with (g := fun p => cw H (dirs p b) (sp p b) - (if Nat.eqb p b then sumZ (fun q => cw H (dirs p q) (sp p q)) (seq 0 k) else 0))|].
  { intros p Hp. rewrite sumZ_minus. f_equal.
    - rewrite (sumZ_indicator (seq 0 k) b (fun q => cw H (dirs p q) (sp p q))) by apply seq_NoDup. destruct (mem_spec b (seq 0 k)) as [I|I]; [reflexivity|]. exfalso. apply I. apply in_seq. lia.
    - destruct (Nat.eqb p b); [reflexivity|]. apply sumZ_zero. reflexivity. }
  rewrite sumZ_minus. rewrite sumZ_minus. f_equal.
  rewrite (sumZ_indicator (seq 0 k) b (fun p => sumZ (fun q => cw H (dirs p q) (sp p q)) (seq 0 k))) by apply seq_NoDup. destruct (mem_spec b (seq 0 k)) as [I|I]; [reflexivity|]. exfalso. apply I. apply in_seq. lia.
Qed.
Theorem stage1_budget b : (b < k)%nat -> delta H (applied H k L dirs pw) b <= L b - pw b.
Proof using Wn LG FR DK BD.
  intros Hb. rewrite delta_applied by exact Hb. set (B := L b - pw b). set (n := involvements k dirs b).
  apply Z.le_trans with (sumZ (fun q => if negb (Nat.eqb q b) && negb (isnil (dirs q b)) then B / Z.max 1 n else 0) (seq 0 k)).
  - apply sumZ_le. intros q Hq. apply in_seq in Hq. destruct (Nat.eqb_spec q b) as [->|Ne]; cbn [negb andb]; [lia|].
    pose proof (share b q Hb ltac:(lia) Ne) as SH. destruct (isnil (dirs q b)); exact SH.
  - rewrite <- sumZ_filter. rewrite sumZ_const. fold (involvements k dirs b). fold n.
    pose proof (inv_nonneg b) as Hn. fold n in Hn. pose proof (BD b Hb) as HB. fold B in HB.
    destruct (Z.eq_dec n 0) as [->|Nn]; [lia|]. rewrite Z.max_r by lia. rewrite Z.mul_comm. apply Z.mul_div_le. lia.
Qed.
End Stage1.
