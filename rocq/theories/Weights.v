(** Weights.v - C38: block weight limits, mt-kahypar/partition/context.cpp:345-386 (Context::setupPartWeights) and :403-416
    (setupMaximumAllowedNodeWeight), with IEEE double arithmetic (Flocq: radix 2, 53 bits, emin -1074, round to nearest even).
    HypernodeWeight is int32_t. *)
From Coq Require Import ZArith Reals Lra Lia List.
From Flocq Require Import Core Relative.
Import ListNotations.
Local Open Scope R_scope.

(** *** Model *)
Definition fexp := FLT_exp (-1074) 53.
Definition rnd (x : R) : R := round radix2 fexp ZnearestE x.
(** A finite double. *)
Definition is_double (x : R) : Prop := generic_format radix2 fexp x.
(** :371-385 (uniform limits).  `ceil(total / static_cast<double>(k))`, converted to int *)
Definition perfect_weight (W k : Z) : Z := Zceil (rnd (IZR W / IZR k)).
(** `(1 + epsilon) * perfect`, converted to int (truncation; undefined if it does not fit, see the theorem's hypothesis) *)
Definition max_weight (eps : R) (p : Z) : Z := Ztrunc (rnd (rnd (1 + eps) * IZR p)).
Record limits := mkLim { lim_perfect : list Z; lim_max : list Z; lim_eps : R }.
Definition setup_uniform (W : Z) (k : nat) (eps : R) : limits :=
  let p := perfect_weight W (Z.of_nat k) in mkLim (repeat p k) (repeat (max_weight eps p) k) eps.
(** :346-369 (individual limits [ls]).  None = InvalidInputException.  [wrap32] = the int additions of std::accumulate (:348) and
    of :356; overflow is undefined behaviour in C++, modelled as wrapping. *)
Definition wrap32 (x : Z) : Z := ((x + 2 ^ 31) mod 2 ^ 32 - 2 ^ 31)%Z.
Definition accumulate (ls : list Z) : Z := fold_left (fun a l => wrap32 (a + l)) ls 0%Z.
Definition individual_perfect (W S l : Z) : Z := Zceil (rnd (rnd (IZR W / IZR S) * IZR l)).
Definition setup_individual (W : Z) (ls : list Z) : option limits :=
  let S := accumulate ls in
  let ps := map (individual_perfect W S) ls in
  if (S <? W)%Z then None
  else Some (mkLim ps ls (Rmin (rnd (99 / 100)) (rnd (rnd (IZR S / IZR (Z.max (accumulate ps) 1)) - 1)))).
(** :403-416; [mult] = max_allowed_weight_multiplier, [cl] = contraction_limit *)
Definition max_node_weight (W : Z) (mult : R) (cl : Z) (ls : list Z) : Z :=
  let m := fold_left Z.min ls (2 ^ 31 - 1)%Z in Z.min (Zceil (rnd (rnd (mult / IZR cl) * IZR W))) m.

(** *** Specification helper: the smallest integer [c] with [k * c >= W]. *)
Definition is_ceil_div (W k c : Z) : Prop := (W <= k * c)%Z /\ forall c', (W <= k * c')%Z -> (c <= c')%Z.

(** *** Proofs *)
Local Instance fexp_valid : Valid_exp fexp. Proof. apply FLT_exp_valid. reflexivity. Qed.
Lemma rnd_le x y : x <= y -> rnd x <= rnd y.
Proof. apply round_le; typeclasses eauto. Qed.
Lemma int_double z : (Z.abs z <= 2 ^ 53)%Z -> is_double (IZR z).
Proof.
  intros H. destruct (Z.eq_dec (Z.abs z) (2 ^ 53)) as [E|N].
  - assert (G : is_double (IZR (2 ^ 53))).
    { change (IZR (2 ^ 53)) with (bpow radix2 53). apply generic_format_bpow. unfold fexp, FLT_exp. simpl. lia. }
    destruct (Z.abs_eq_or_opp z) as [E'|E']; rewrite E' in E.
    + rewrite E. exact G.
    + assert (z = - (2 ^ 53))%Z as -> by lia. rewrite opp_IZR. apply generic_format_opp, G.
  - apply generic_format_FLT. apply (FLT_spec radix2 (-1074) 53 (IZR z) (Float radix2 z 0)); simpl; [|lia|lia].
    unfold F2R. simpl. lra.
Qed.
Lemma rnd_int z : (Z.abs z <= 2 ^ 53)%Z -> rnd (IZR z) = IZR z.
Proof. intros H. apply round_generic; [typeclasses eauto|apply int_double, H]. Qed.
Lemma rnd_ge_int z x : (Z.abs z <= 2 ^ 53)%Z -> IZR z <= x -> IZR z <= rnd x.
Proof. intros H L. rewrite <- (rnd_int z H). apply rnd_le, L. Qed.
Lemma rnd_le_int z x : (Z.abs z <= 2 ^ 53)%Z -> x <= IZR z -> rnd x <= IZR z.
Proof. intros H L. rewrite <- (rnd_int z H). apply rnd_le, L. Qed.
Lemma rnd_double x : is_double x -> rnd x = x.
Proof. intros H. apply round_generic; [typeclasses eauto|exact H]. Qed.
Definition u : R := / IZR (2 ^ 53).
Lemma u_val : u = / 9007199254740992. Proof. reflexivity. Qed.
Lemma rnd_err x : / IZR (2 ^ 100) <= x -> x - u * x <= rnd x <= x + u * x.
Proof.
  intros H. assert (P : 0 < x). { apply Rlt_le_trans with (2 := H). apply Rinv_0_lt_compat. apply IZR_lt. reflexivity. }
  pose proof (relative_error_N_FLT radix2 (-1074) 53 eq_refl (fun t => negb (Z.even t)) x) as E.
  assert (A : bpow radix2 (-1074 + 53 - 1) <= Rabs x).
  { rewrite Rabs_pos_eq by lra. apply Rle_trans with (2 := H). change (/ IZR (2 ^ 100)) with (bpow radix2 (-100)). apply bpow_le. lia. }
  specialize (E A). rewrite (Rabs_pos_eq x) in E by lra. apply Rabs_le_inv in E. change (round radix2 (FLT_exp (-1074) 53) ZnearestE x) with (rnd x) in E.
  assert (C : / 2 * bpow radix2 (- (53) + 1) = u). { change (bpow radix2 (- (53) + 1)) with (/ IZR (2 ^ 52)). unfold u. simpl. lra. }
  rewrite C in E. lra.
Qed.
Lemma ceil_div_exists W k : (0 < k)%Z -> is_ceil_div W k ((W + k - 1) / k).
Proof.
  intros K. pose proof (Z.div_mod (W + k - 1) k ltac:(lia)). pose proof (Z.mod_pos_bound (W + k - 1) k K). split; [nia|]. intros c' Hc. assert ((W + k - 1) / k < c' + 1)%Z; [|lia]. apply Z.div_lt_upper_bound; nia.
Qed.
Lemma perfect_exact W k : (0 <= W < 2 ^ 31)%Z -> (1 <= k < 2 ^ 31)%Z -> perfect_weight W k = ((W + k - 1) / k)%Z.
Proof.
  intros HW HK. set (c := ((W + k - 1) / k)%Z). destruct (ceil_div_exists W k ltac:(lia)) as [C1 C2]. fold c in C1, C2.
  assert (Kp : 0 < IZR k) by (apply IZR_lt; lia). assert (Cub : (c <= W)%Z). { apply C2. nia. } assert (C0 : (0 <= c)%Z) by nia.
  unfold perfect_weight. apply Zceil_imp. destruct (Z.eq_dec W 0) as [->|NW].
  - assert (c = 0)%Z as -> by lia. replace (0 / IZR k) with 0 by (field; lra). rewrite (rnd_int 0) by lia. split; [apply IZR_lt; lia|lra].
  - set (x := IZR W / IZR k). assert (Xc : x <= IZR c).
    { unfold x. apply Rmult_le_reg_r with (IZR k); [exact Kp|]. unfold Rdiv. rewrite Rmult_assoc, Rinv_l, Rmult_1_r by lra. rewrite <- mult_IZR. apply IZR_le. lia. }
    assert (Lo : (k * (c - 1) + 1 <= W)%Z). { destruct (Z_le_gt_dec W (k * (c - 1))); [specialize (C2 (c - 1)%Z ltac:(lia)); lia|lia]. }
    assert (Ex : x * IZR k = IZR W). { unfold x. field. lra. }
    assert (Wp : 1 <= IZR W) by (apply IZR_le; lia). assert (WU : IZR W <= 2147483648) by (apply IZR_le; lia). assert (KU : IZR k <= 2147483648) by (apply IZR_le; lia).
    assert (X0 : / IZR (2 ^ 100) <= x).
    { apply Rle_trans with (/ 2147483648).
      - apply Rinv_le; [lra|]. apply IZR_le. lia.
      - unfold x, Rdiv. apply Rle_trans with (1 * / IZR k); [rewrite Rmult_1_l; apply Rinv_le; lra|]. apply Rmult_le_compat_r; [left; apply Rinv_0_lt_compat; exact Kp|exact Wp]. }
    pose proof (rnd_err x X0) as [E1 E2]. split.
    + apply Rlt_le_trans with (2 := E1). rewrite u_val. apply Rmult_lt_reg_r with (IZR k); [exact Kp|].
      apply IZR_le in Lo. rewrite plus_IZR, mult_IZR, minus_IZR in Lo. rewrite minus_IZR. nra.
    + apply rnd_le_int; [lia|exact Xc].
Qed.
Lemma rnd_err2 a b : 1 <= a -> 1 <= b -> a * b * (1 - 2 * u) <= rnd (rnd a * b) <= a * b * (1 + 2 * u + u * u).
Proof.
  intros A B. assert (T : / IZR (2 ^ 100) <= 1). { rewrite <- Rinv_1. apply Rinv_le; [lra|apply IZR_le; lia]. }
  pose proof (rnd_err a ltac:(lra)) as [E1 E2]. assert (1 <= rnd a). { apply rnd_ge_int; [lia|exact A]. }
  assert (R1 : 1 <= rnd a * b). { rewrite <- (Rmult_1_r 1). apply Rmult_le_compat; lra. }
  pose proof (rnd_err (rnd a * b) ltac:(lra)) as [F1 F2]. rewrite u_val in *. split; nra.
Qed.

(** C38 (uniform limits): all [k] blocks get the perfect weight [c] = the smallest integer with [k * c >= W] and the limit [m];
    [m >= c], so [k] blocks can hold the total weight; [m] is [(1 + eps) * c] rounded down, up to the relative rounding error
    2^-51 of two double operations; for eps = 0 it is exactly [c]. *)
Theorem C38_uniform_limits W k eps : (0 <= W < 2 ^ 31)%Z -> (1 <= k)%nat -> (Z.of_nat k < 2 ^ 31)%Z -> 0 <= eps -> is_double eps ->
  exists c m, setup_uniform W k eps = mkLim (repeat c k) (repeat m k) eps /\
    is_ceil_div W (Z.of_nat k) c /\ (c <= m)%Z /\ (W <= Z.of_nat k * m)%Z /\
    (1 + eps) * IZR c * (1 - / IZR (2 ^ 51)) - 1 < IZR m <= (1 + eps) * IZR c * (1 + / IZR (2 ^ 51)) /\
    (eps = 0 -> m = c).
Proof.
  intros HW K1 K2 He De. unfold setup_uniform. rewrite perfect_exact by lia. pose proof (ceil_div_exists W (Z.of_nat k) ltac:(lia)) as [C1 C2].
  set (c := ((W + Z.of_nat k - 1) / Z.of_nat k)%Z) in *. assert (Cub : (c <= W)%Z). { apply C2. nia. } assert (C0 : (0 <= c)%Z) by nia.
  assert (R1 : 1 <= rnd (1 + eps)). { apply rnd_ge_int; [lia|lra]. }
  assert (CR : 0 <= IZR c) by (apply IZR_le; lia).
  assert (M : IZR c <= rnd (rnd (1 + eps) * IZR c)). { apply rnd_ge_int; [lia|]. rewrite <- (Rmult_1_l (IZR c)) at 1. apply Rmult_le_compat_r; assumption. }
  assert (MC : (c <= max_weight eps c)%Z). { unfold max_weight. rewrite Ztrunc_floor by lra. apply Zfloor_lub, M. }
  exists c, (max_weight eps c). split; [reflexivity|]. split; [split; assumption|]. split; [exact MC|]. split; [nia|]. split.
  - unfold max_weight. rewrite Ztrunc_floor by lra. set (y := rnd (rnd (1 + eps) * IZR c)) in *. pose proof (Zfloor_lb y) as L. pose proof (Zfloor_ub y) as U.
    change (/ IZR (2 ^ 51)) with (/ 2251799813685248). destruct (Z.eq_dec c 0) as [Ez|Nz].
    + assert (y = 0) as Y0. { unfold y. rewrite Ez, Rmult_0_r. apply (rnd_int 0). lia. } rewrite Y0 in *. rewrite Ez in *. lra.
    + assert (1 <= IZR c) as Cp by (apply IZR_le; lia). pose proof (rnd_err2 (1 + eps) (IZR c) ltac:(lra) Cp) as [A B]. fold y in A, B. rewrite u_val in *. assert (1 <= (1 + eps) * IZR c) by nra.
      set (z := (1 + eps) * IZR c) in *. clearbody z y. split; nra.
  - intros ->. unfold max_weight. replace (1 + 0) with (IZR 1) by lra. rewrite (rnd_int 1) by lia. rewrite Rmult_1_l, rnd_int by lia. apply Ztrunc_IZR.
Qed.

Lemma wrap32_id x : (- 2 ^ 31 <= x < 2 ^ 31)%Z -> wrap32 x = x.
Proof. intros H. unfold wrap32. rewrite Z.mod_small; lia. Qed.
Definition total (ls : list Z) : Z := fold_right Z.add 0%Z ls.
Lemma accumulate_exact ls : (forall l, In l ls -> (0 <= l)%Z) -> (total ls < 2 ^ 31)%Z -> accumulate ls = total ls.
Proof.
  intros N T. unfold accumulate. rewrite <- (Z.add_0_l (total ls)). assert (A : (0 <= 0)%Z) by lia. assert (B : (0 + total ls < 2 ^ 31)%Z) by lia. revert A B. generalize 0%Z at 2 3 4 5 as a.
  clear T. induction ls as [|l ls IH]; intros a A B; simpl in *; [lia|].
  assert (T0 : (0 <= total ls)%Z). { clear - N. induction ls as [|x ls IH]; simpl; [lia|]. pose proof (N x ltac:(simpl; auto)). assert (0 <= total ls)%Z; [|lia]. apply IH. intros y Hy. apply N. simpl in *. tauto. }
  pose proof (N l (or_introl eq_refl)). rewrite wrap32_id by lia. rewrite IH; try lia. intros y Hy. apply N. right; exact Hy.
Qed.
(** C38 (individual limits): if the sum of the limits is representable, an input is rejected exactly if the limits cannot hold the
    total weight; otherwise the limits are kept as given and the perfect weight of every block does not exceed its limit. *)
Theorem C38_individual_limits W ls : (0 < W < 2 ^ 31)%Z -> (forall l, In l ls -> (0 <= l)%Z) -> (total ls < 2 ^ 31)%Z ->
  (setup_individual W ls = None <-> (total ls < W)%Z) /\
  (forall L, setup_individual W ls = Some L -> lim_max L = ls /\ length (lim_perfect L) = length ls /\
     forall i, (i < length ls)%nat -> (0 <= nth i (lim_perfect L) 0 <= nth i ls 0)%Z).
Proof.
  intros HW HN HT. unfold setup_individual. rewrite accumulate_exact by assumption. split.
  - destruct (Z.ltb_spec (total ls) W); split; intros; try reflexivity; try lia; try discriminate.
  - intros L. destruct (Z.ltb_spec (total ls) W) as [|TW]; [discriminate|]. intros E. injection E as <-. cbn [lim_max lim_perfect]. split; [reflexivity|]. split; [apply map_length|].
    intros i Hi. rewrite nth_indep with (d' := individual_perfect W (total ls) 0%Z) by (rewrite map_length; exact Hi). rewrite map_nth. unfold individual_perfect.
    set (l := nth i ls 0%Z). pose proof (HN l (nth_In ls 0%Z Hi)) as L0.
    assert (LT : (l <= total ls)%Z).
    { unfold l. clear - HN Hi. revert i Hi. induction ls as [|x ls IH]; intros i Hi; simpl in *; [lia|].
      assert (T0 : forall m, (forall l, In l m -> (0 <= l)%Z) -> (0 <= total m)%Z). { induction m as [|y m IHm]; simpl; intros X; [lia|]. pose proof (X y (or_introl eq_refl)). assert (0 <= total m)%Z; [apply IHm; intros; apply X; auto|lia]. }
      pose proof (HN x (or_introl eq_refl)). pose proof (T0 ls ltac:(intros; apply HN; auto)). destruct i; [lia|]. specialize (IH ltac:(intros; apply HN; auto) i ltac:(lia)). lia. }
    assert (SP : 0 < IZR (total ls)) by (apply IZR_lt; lia). assert (F : 0 <= rnd (IZR W / IZR (total ls)) <= 1).
    { split.
      - apply rnd_ge_int; [lia|]. apply Rle_mult_inv_pos; [apply IZR_le; lia|exact SP].
      - apply rnd_le_int; [lia|]. apply Rmult_le_reg_r with (IZR (total ls)); [exact SP|]. unfold Rdiv. rewrite Rmult_assoc, Rinv_l, Rmult_1_r, Rmult_1_l by lra. apply IZR_le. lia. }
    assert (LR : 0 <= IZR l) by (apply IZR_le; lia).
    assert (G : 0 <= rnd (rnd (IZR W / IZR (total ls)) * IZR l) <= IZR l).
    { split; [apply rnd_ge_int; [lia|nra]|apply rnd_le_int; [lia|nra]]. }
    split.
    + apply le_IZR. apply Rle_trans with (1 := proj1 G). apply Zceil_ub.
    + apply Zceil_glb, G.
Qed.
(** No cluster may become heavier than the smallest block limit. *)
Theorem C38_node_weight_limit W mult cl ls l : In l ls -> (max_node_weight W mult cl ls <= l)%Z.
Proof.
  intros H. unfold max_node_weight. apply Z.le_trans with (fold_left Z.min ls (2 ^ 31 - 1)%Z); [apply Z.le_min_r|].
  generalize (2 ^ 31 - 1)%Z as a. induction ls as [|x ls IH]; intros a; [destruct H|]. simpl. destruct H as [->|H]; [|apply IH, H].
  clear IH. assert (G : forall ls b, (fold_left Z.min ls b <= b)%Z). { clear. induction ls as [|y ls IH]; intros b; simpl; [lia|]. specialize (IH (Z.min b y)). lia. }
  specialize (G ls (Z.min a l)). lia.
Qed.
(** Finding: two blocks with limit 2^30 each are rejected for a graph of weight 10, because the sum overflows int. *)
Theorem C38_refuted_overflow : setup_individual 10 [2 ^ 30; 2 ^ 30]%Z = None /\ (10 <= total [2 ^ 30; 2 ^ 30])%Z.
Proof. split; [|vm_compute; discriminate]. unfold setup_individual. change (accumulate [2 ^ 30; 2 ^ 30]%Z) with (- 2 ^ 31)%Z. reflexivity. Qed.
(** Non-trivial instances: W = 10, k = 4, eps = 1/2; limits 7, 5 for W = 11. *)
Example ex_uniform : setup_uniform 10 4 (/ 2) = mkLim [3;3;3;3]%Z [4;4;4;4]%Z (/ 2) /\ is_double (/ 2).
Proof.
  assert (D : forall m e, (Z.abs m < 2 ^ 53)%Z -> (-1074 <= e)%Z -> is_double (IZR m * bpow radix2 e)).
  { intros m e Hm He. apply generic_format_FLT. apply (FLT_spec radix2 (-1074) 53 _ (Float radix2 m e)); [reflexivity|exact Hm|exact He]. }
  split; [|replace (/ 2) with (IZR 1 * bpow radix2 (-1)) by (simpl; lra); apply D; lia].
  unfold setup_uniform. rewrite perfect_exact by lia. change ((10 + Z.of_nat 4 - 1) / Z.of_nat 4)%Z with 3%Z. unfold max_weight.
  rewrite (rnd_double (1 + / 2)). 2: { replace (1 + / 2) with (IZR 3 * bpow radix2 (-1)) by (simpl; lra). apply D; lia. }
  rewrite (rnd_double ((1 + / 2) * 3)). 2: { replace ((1 + / 2) * 3) with (IZR 9 * bpow radix2 (-1)) by (simpl; lra). apply D; lia. }
  replace (Ztrunc ((1 + / 2) * 3)) with 4%Z; [reflexivity|]. symmetry. rewrite Ztrunc_floor by lra. apply Zfloor_imp. simpl. lra.
Qed.
Example ex_individual : exists L, setup_individual 11 [7; 5]%Z = Some L /\ lim_max L = [7; 5]%Z.
Proof. eexists. split; [unfold setup_individual; change (accumulate [7; 5]%Z <? 11)%Z with false; reflexivity|reflexivity]. Qed.
