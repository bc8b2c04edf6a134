(** GainCacheProofs.v *)
From Verif Require Import Base Spec SpecLemmas PHG PHGProofs Objective GainCache.

(** ---------- folds over pins ---------- *)
Lemma fold_pen l (p : nat -> bool) x : NoDup l -> forall c,
  let c' := fold_left (fun c u => if p u then add_pen c u x else c) l c in
  (forall v, pen c' v = pen c v + if mem v l && p v then x else 0) /\ (forall v b, ben c' v b = ben c v b).
Proof.
  induction l as [|a l IH]; intros Hnd c; cbv zeta; simpl.
  - split; intros; lia.
  - inversion Hnd as [|y z Hni Hnd']; subst.
    destruct (IH Hnd' (if p a then add_pen c a x else c)) as [E1 E2]. split.
    + intros v. rewrite E1. unfold mem. simpl existsb. destruct (Nat.eqb_spec v a) as [->|Hva]; simpl.
      * rewrite (proj2 (mem_false a l) Hni : existsb (Nat.eqb a) l = false). simpl.
        destruct (p a); simpl; [rewrite upd_same|]; lia.
      * f_equal. destruct (p a); simpl; [rewrite upd_other by exact Hva|]; reflexivity.
    + intros v b. rewrite E2. destruct (p a); reflexivity.
Qed.

Lemma fold_ben l b0 x : NoDup l -> forall c,
  let c' := fold_left (fun c u => add_ben c u b0 x) l c in
  (forall v, pen c' v = pen c v) /\ (forall v b, ben c' v b = ben c v b + if mem v l && Nat.eqb b b0 then x else 0).
Proof.
  induction l as [|a l IH]; intros Hnd c; cbv zeta; simpl.
  - split; intros; lia.
  - inversion Hnd as [|y z Hni Hnd']; subst.
    destruct (IH Hnd' (add_ben c a b0 x)) as [E1 E2]. split.
    + intros v. rewrite E1. reflexivity.
    + intros v b. rewrite E2. simpl. rewrite upd2_eq. unfold mem. simpl existsb.
      destruct (Nat.eqb_spec v a) as [->|Hva]; simpl.
      * rewrite (proj2 (mem_false a l) Hni : existsb (Nat.eqb a) l = false). simpl.
        destruct (Nat.eqb_spec b b0) as [->|]; lia.
      * reflexivity.
Qed.

Lemma fold_both l b0 x y : NoDup l -> forall c,
  let c' := fold_left (fun c u => add_ben (add_pen c u x) u b0 y) l c in
  (forall v, pen c' v = pen c v + if mem v l then x else 0) /\
  (forall v b, ben c' v b = ben c v b + if mem v l && Nat.eqb b b0 then y else 0).
Proof.
  induction l as [|a l IH]; intros Hnd c; cbv zeta; simpl.
  - split; intros; lia.
  - inversion Hnd as [|y0 z Hni Hnd']; subst.
    destruct (IH Hnd' (add_ben (add_pen c a x) a b0 y)) as [E1 E2]. split.
    + intros v. rewrite E1. simpl. unfold mem. simpl existsb. destruct (Nat.eqb_spec v a) as [->|Hva]; simpl.
      * rewrite upd_same. rewrite (proj2 (mem_false a l) Hni : existsb (Nat.eqb a) l = false). lia.
      * rewrite upd_other by exact Hva. reflexivity.
    + intros v b. rewrite E2. simpl. rewrite upd2_eq. unfold mem. simpl existsb.
      destruct (Nat.eqb_spec v a) as [->|Hva]; simpl.
      * rewrite (proj2 (mem_false a l) Hni : existsb (Nat.eqb a) l = false). simpl.
        destruct (Nat.eqb_spec b b0) as [->|]; lia.
      * reflexivity.
Qed.

Lemma three_pin_counts H P e a b c : a <> b -> a <> c -> b <> c ->
  pin_count H P e a + pin_count H P e b + pin_count H P e c <= esize H e.
Proof.
  intros H1 H2 H3. rewrite !pin_count_sum. unfold esize. rewrite sumZ_length, <- !sumZ_plus. apply sumZ_le.
  intros v _. unfold in_block. destruct (P v) as [d|]; [|simpl; lia].
  destruct (Nat.eqb_spec d a); destruct (Nat.eqb_spec d b); destruct (Nat.eqb_spec d c); simpl; subst; try lia; congruence.
Qed.

(** ---------- closed forms ---------- *)
Definition pen_of (pt : Z -> Z -> Z) (H : hypergraph) (P : partition) (u : nat) : Z :=
  sumZ (fun e => ew H e * pt (esize H e) (pin_count H P e (blk P u))) (inc H u).
Definition ben_of (bt : Z -> Z -> Z) (H : hypergraph) (P : partition) (u b : nat) : Z :=
  sumZ (fun e => ew H e * bt (esize H e) (pin_count H P e b)) (inc H u).

(** Multipliers. *)
Definition km1_pt (sz c : Z) : Z := Z.b2z (1 <? c).
Definition km1_bt (sz c : Z) : Z := Z.b2z (1 <=? c).
Definition cut_pt (sz c : Z) : Z := Z.b2z ((1 <? sz) && (c =? sz)).
Definition cut_bt (sz c : Z) : Z := Z.b2z ((1 <? sz) && (c =? sz - 1)).
Definition soed_pt (sz c : Z) : Z := Z.b2z (1 <? sz) * (Z.b2z (1 <? c) + Z.b2z (c =? sz)).
Definition soed_bt (sz c : Z) : Z := Z.b2z (1 <? sz) * (Z.b2z (1 <=? c) + Z.b2z (c =? sz - 1)).

(** One hyperedge update is exact w.r.t. multipliers [pt]/[bt] ([all] = also the penalty of the moved node). *)
Definition delta_exact (delta : hypergraph -> partition -> cache -> sync_update -> cache)
           (pt bt : Z -> Z -> Z) (all : bool) : Prop :=
  forall H k P u from to e c,
    NoDup (pins H e) -> In u (pins H e) -> P u = Some from -> from <> to -> (to < k)%nat -> pins_assigned H P k e ->
    let P' := move P u to in
    let su := mkSync e from to (ew H e) (esize H e) (pin_count H P e from - 1) (pin_count H P e to + 1) in
    (forall v b, ben (delta H P' c su) v b = ben c v b +
        if mem v (pins H e) then ew H e * (bt (esize H e) (pin_count H P' e b) - bt (esize H e) (pin_count H P e b)) else 0) /\
    (forall v, (v <> u \/ all = true) -> pen (delta H P' c su) v = pen c v +
        if mem v (pins H e) then ew H e * (pt (esize H e) (pin_count H P' e (blk P' v)) - pt (esize H e) (pin_count H P e (blk P v))) else 0).

Ltac zb := repeat match goal with
  | |- context [Z.b2z (?a =? ?b)] => destruct (Z.eqb_spec a b)
  | |- context [Z.b2z (?a <? ?b)] => destruct (Z.ltb_spec a b)
  | |- context [Z.b2z (?a <=? ?b)] => destruct (Z.leb_spec a b)
  end.

(** Facts about an arbitrary pin [v] after the move. *)
Lemma edge_facts H k P u from to e v :
  NoDup (pins H e) -> In u (pins H e) -> P u = Some from -> from <> to -> (to < k)%nat -> pins_assigned H P k e -> In v (pins H e) ->
  1 <= pin_count H P e from /\ 0 <= pin_count H P e to /\ pin_count H P e from + pin_count H P e to <= esize H e /\
  (v = u \/ (v <> u /\ P v = Some from /\ 2 <= pin_count H P e from) \/
   (v <> u /\ P v = Some to /\ 1 <= pin_count H P e to) \/
   (v <> u /\ exists c, P v = Some c /\ c <> from /\ c <> to /\
      pin_count H P e from + pin_count H P e to + 1 <= esize H e)).
Proof.
  intros Hnd Hu Hpu Hft Hto HA Hv.
  assert (H1 : 1 <= pin_count H P e from).
  { assert (X : 0 < pin_count H P e from) by (apply pin_count_pos_iff; exists u; tauto). lia. }
  split; [exact H1|]. split; [apply pin_count_nonneg|]. split; [apply two_pin_counts; exact Hft|].
  destruct (Nat.eq_dec v u) as [|Hvu]; [left; assumption|right].
  destruct (HA v Hv) as [c [Hc Hck]].
  assert (Hcpos : 0 < pin_count H P e c) by (apply pin_count_pos_iff; exists v; tauto).
  destruct (Nat.eq_dec c from) as [->|Hcf].
  - left. split; [exact Hvu|]. split; [exact Hc|].
    (* two distinct pins in block from *)
    unfold pin_count in *. 
    assert (X : incl [u; v] (filter (in_block P from) (pins H e))).
    { intros x [<-|[<-|[]]]; apply filter_In; split; try assumption; apply in_block_true; assumption. }
    apply NoDup_incl_length in X; [simpl in X; lia|].
    constructor; [intros [->|[]]; congruence|constructor; [intros []|constructor]].
  - destruct (Nat.eq_dec c to) as [->|Hct].
    + right; left. split; [exact Hvu|]. split; [exact Hc|lia].
    + right; right. split; [exact Hvu|]. exists c. split; [exact Hc|]. split; [exact Hcf|]. split; [exact Hct|].
      pose proof (three_pin_counts H P e from to c Hft ltac:(congruence) ltac:(congruence)). lia.
Qed.

Lemma blk_some P v b : P v = Some b -> blk P v = b.
Proof. unfold blk. intros ->. reflexivity. Qed.
Lemma blk_move_same P u t : blk (move P u t) u = t.
Proof. apply blk_some. unfold move. apply upd_same. Qed.
Lemma blk_move_other P u t v : v <> u -> blk (move P u t) v = blk P v.
Proof. intros Hn. unfold blk, move. rewrite upd_other by exact Hn. reflexivity. Qed.

(** Closed effect of the km1 rules. *)
Definition km1_dpen (P : partition) (su : sync_update) (v : nat) : Z :=
  (if su_from_after su =? 1 then if in_block P (su_from su) v then - su_weight su else 0 else 0)
  + (if su_to_after su =? 2 then if in_block P (su_to su) v then su_weight su else 0 else 0).
Definition km1_dben (su : sync_update) (b : nat) : Z :=
  (if su_from_after su =? 0 then if Nat.eqb b (su_from su) then - su_weight su else 0 else 0)
  + (if su_to_after su =? 1 then if Nat.eqb b (su_to su) then su_weight su else 0 else 0).

Lemma km1_delta_eff H P c su : NoDup (pins H (su_he su)) ->
  (forall v, pen (km1_delta H P c su) v = pen c v + if mem v (pins H (su_he su)) then km1_dpen P su v else 0) /\
  (forall v b, ben (km1_delta H P c su) v b = ben c v b + if mem v (pins H (su_he su)) then km1_dben su b else 0).
Proof.
  intros Hnd. unfold km1_delta, km1_dpen, km1_dben. set (ps := pins H (su_he su)) in *.
  set (w := su_weight su).
  set (c1 := if su_from_after su =? 1 then _ else _).
  assert (E1 : (forall v, pen c1 v = pen c v + if mem v ps then
                 (if su_from_after su =? 1 then if in_block P (su_from su) v then - w else 0 else 0) else 0) /\
               (forall v b, ben c1 v b = ben c v b + if mem v ps then
                 (if su_from_after su =? 0 then if Nat.eqb b (su_from su) then - w else 0 else 0) else 0)).
  { unfold c1. destruct (Z.eqb_spec (su_from_after su) 1) as [Ef|Ef].
    - rewrite Ef. destruct (fold_pen ps (in_block P (su_from su)) (- w) Hnd c) as [A B]. split.
      + intros v. rewrite A. destruct (mem v ps), (in_block P (su_from su) v); reflexivity.
      + intros v b. rewrite B. destruct (mem v ps); simpl; lia.
    - destruct (Z.eqb_spec (su_from_after su) 0) as [Ef0|Ef0].
      + destruct (fold_ben ps (su_from su) (- w) Hnd c) as [A B]. split.
        * intros v. rewrite A. destruct (mem v ps); lia.
        * intros v b. rewrite B. destruct (mem v ps), (Nat.eqb b (su_from su)); reflexivity.
      + split; intros; destruct (mem v ps); lia. }
  destruct E1 as [P1 B1]. clearbody c1.
  destruct (Z.eqb_spec (su_to_after su) 1) as [Et|Et].
  - rewrite Et. destruct (fold_ben ps (su_to su) w Hnd c1) as [A B]. split.
    + intros v. rewrite A, P1. simpl. destruct (mem v ps); lia.
    + intros v b. rewrite B, B1. destruct (mem v ps), (Nat.eqb b (su_to su)); simpl; lia.
  - destruct (Z.eqb_spec (su_to_after su) 2) as [Et2|Et2].
    + destruct (fold_pen ps (in_block P (su_to su)) w Hnd c1) as [A B]. split.
      * intros v. rewrite A, P1. destruct (mem v ps), (in_block P (su_to su) v); simpl; lia.
      * intros v b. rewrite B, B1. destruct (mem v ps); lia.
    + split; intros; rewrite ?P1, ?B1; destruct (mem v ps); lia.
Qed.

(** Closed effect of the cut rules. *)
Definition cut_dpen (su : sync_update) : Z :=
  (if su_from_after su =? su_size su - 1 then - su_weight su else 0)
  + (if su_to_after su =? su_size su then su_weight su else 0).
Definition cut_dben (su : sync_update) (b : nat) : Z :=
  (if Nat.eqb b (su_from su) then
     (if su_from_after su =? su_size su - 1 then su_weight su
      else if su_from_after su =? su_size su - 2 then - su_weight su else 0) else 0)
  + (if Nat.eqb b (su_to su) then
     (if su_to_after su =? su_size su then - su_weight su
      else if su_to_after su =? su_size su - 1 then su_weight su else 0) else 0).

Lemma cut_part_eff H c su : NoDup (pins H (su_he su)) ->
  (forall v, pen (cut_part_delta H c su) v = pen c v + if mem v (pins H (su_he su)) then cut_dpen su else 0) /\
  (forall v b, ben (cut_part_delta H c su) v b = ben c v b + if mem v (pins H (su_he su)) then cut_dben su b else 0).
Proof.
  intros Hnd. unfold cut_part_delta, cut_dpen, cut_dben. set (ps := pins H (su_he su)) in *.
  set (w := su_weight su).
  set (c1 := if su_from_after su =? su_size su - 1 then _ else _).
  assert (E1 : (forall v, pen c1 v = pen c v + if mem v ps then
                 (if su_from_after su =? su_size su - 1 then - w else 0) else 0) /\
               (forall v b, ben c1 v b = ben c v b + if mem v ps then
                 (if Nat.eqb b (su_from su) then
                  (if su_from_after su =? su_size su - 1 then w
                   else if su_from_after su =? su_size su - 2 then - w else 0) else 0) else 0)).
  { unfold c1. destruct (Z.eqb_spec (su_from_after su) (su_size su - 1)) as [Ef|Ef].
    - destruct (fold_both ps (su_from su) (- w) w Hnd c) as [A B]. split.
      + intros v. rewrite A. reflexivity.
      + intros v b. rewrite B. destruct (mem v ps), (Nat.eqb b (su_from su)); simpl; lia.
    - destruct (Z.eqb_spec (su_from_after su) (su_size su - 2)) as [Ef0|Ef0].
      + destruct (fold_ben ps (su_from su) (- w) Hnd c) as [A B]. split.
        * intros v. rewrite A. destruct (mem v ps); lia.
        * intros v b. rewrite B. destruct (mem v ps), (Nat.eqb b (su_from su)); reflexivity.
      + split; intros; destruct (mem v ps); try destruct (Nat.eqb b (su_from su)); lia. }
  destruct E1 as [P1 B1]. clearbody c1.
  destruct (Z.eqb_spec (su_to_after su) (su_size su)) as [Et|Et].
  - destruct (fold_both ps (su_to su) w (- w) Hnd c1) as [A B]. split.
    + intros v. rewrite A, P1. destruct (mem v ps); lia.
    + intros v b. rewrite B, B1. destruct (mem v ps), (Nat.eqb b (su_to su)); simpl; lia.
  - destruct (Z.eqb_spec (su_to_after su) (su_size su - 1)) as [Et2|Et2].
    + destruct (fold_ben ps (su_to su) w Hnd c1) as [A B]. split.
      * intros v. rewrite A, P1. destruct (mem v ps); lia.
      * intros v b. rewrite B, B1. destruct (mem v ps), (Nat.eqb b (su_to su)); simpl; lia.
    + split; intros; rewrite ?P1, ?B1; destruct (mem v ps); try destruct (Nat.eqb b (su_to su)); lia.
Qed.

Ltac bdest := repeat match goal with
  | |- context [if ?a =? ?b then _ else _] => destruct (Z.eqb_spec a b)
  | |- context [Z.b2z (?a =? ?b)] => destruct (Z.eqb_spec a b)
  | |- context [Z.b2z (?a <? ?b)] => destruct (Z.ltb_spec a b)
  | |- context [Z.b2z (?a <=? ?b)] => destruct (Z.leb_spec a b)
  end; simpl Z.b2z; try lia.

(** Benefit multiplier differences, pure arithmetic. *)
Lemma km1_ben_arith H k P u from to e b :
  NoDup (pins H e) -> In u (pins H e) -> P u = Some from -> from <> to -> (to < k)%nat -> pins_assigned H P k e ->
  km1_dben (mkSync e from to (ew H e) (esize H e) (pin_count H P e from - 1) (pin_count H P e to + 1)) b =
  ew H e * (km1_bt (esize H e) (pin_count H (move P u to) e b) - km1_bt (esize H e) (pin_count H P e b)).
Proof.
  intros Hnd Hu Hpu Hft Hto HA.
  destruct (edge_facts H k P u from to e u Hnd Hu Hpu Hft Hto HA Hu) as (F1 & F2 & F3 & _).
  rewrite (pc_move H k P u from to e) by assumption. unfold km1_dben, km1_bt. simpl.
  destruct (Nat.eqb_spec b from) as [->|Hbf].
  - replace (Nat.eqb from to) with false by lia. simpl. bdest.
  - destruct (Nat.eqb_spec b to) as [->|Hbt]; simpl; bdest.
Qed.

Lemma cut_ben_arith H k P u from to e b :
  NoDup (pins H e) -> In u (pins H e) -> P u = Some from -> from <> to -> (to < k)%nat -> pins_assigned H P k e ->
  cut_dben (mkSync e from to (ew H e) (esize H e) (pin_count H P e from - 1) (pin_count H P e to + 1)) b =
  ew H e * (Z.b2z (pin_count H (move P u to) e b =? esize H e - 1) - Z.b2z (pin_count H P e b =? esize H e - 1)).
Proof.
  intros Hnd Hu Hpu Hft Hto HA.
  destruct (edge_facts H k P u from to e u Hnd Hu Hpu Hft Hto HA Hu) as (F1 & F2 & F3 & _).
  rewrite (pc_move H k P u from to e) by assumption. unfold cut_dben. simpl.
  destruct (Nat.eqb_spec b from) as [->|Hbf].
  - replace (Nat.eqb from to) with false by lia. simpl. bdest.
  - destruct (Nat.eqb_spec b to) as [->|Hbt]; simpl; bdest.
Qed.

Lemma km1_pen_arith H k P u from to e v :
  NoDup (pins H e) -> In u (pins H e) -> P u = Some from -> from <> to -> (to < k)%nat -> pins_assigned H P k e ->
  In v (pins H e) -> v <> u ->
  km1_dpen (move P u to) (mkSync e from to (ew H e) (esize H e) (pin_count H P e from - 1) (pin_count H P e to + 1)) v =
  ew H e * (km1_pt (esize H e) (pin_count H (move P u to) e (blk (move P u to) v))
            - km1_pt (esize H e) (pin_count H P e (blk P v))).
Proof.
  intros Hnd Hu Hpu Hft Hto HA Hv Hvu.
  destruct (edge_facts H k P u from to e v Hnd Hu Hpu Hft Hto HA Hv) as (F1 & F2 & F3 & F4).
  rewrite (blk_move_other P u to v Hvu). unfold km1_dpen, km1_pt. simpl.
  rewrite !(pc_move H k P u from to e) by assumption.
  rewrite !in_block_move. replace (Nat.eqb v u) with false by lia. unfold in_block.
  destruct F4 as [F4|[(_ & F4 & F5)|[(_ & F4 & F5)|(_ & c & F4 & F5 & F6 & F7)]]]; [congruence| | |];
    rewrite (blk_some P v _ F4), F4.
  - rewrite Nat.eqb_refl. replace (Nat.eqb from to) with false by lia. simpl. bdest.
  - rewrite Nat.eqb_refl. replace (Nat.eqb to from) with false by lia. simpl. bdest.
  - replace (Nat.eqb c to) with false by lia. replace (Nat.eqb c from) with false by lia. simpl. bdest.
Qed.

Lemma cut_pen_arith H k P u from to e v :
  NoDup (pins H e) -> In u (pins H e) -> P u = Some from -> from <> to -> (to < k)%nat -> pins_assigned H P k e ->
  In v (pins H e) -> 1 < esize H e ->
  cut_dpen (mkSync e from to (ew H e) (esize H e) (pin_count H P e from - 1) (pin_count H P e to + 1)) =
  ew H e * (Z.b2z (pin_count H (move P u to) e (blk (move P u to) v) =? esize H e)
            - Z.b2z (pin_count H P e (blk P v) =? esize H e)).
Proof.
  intros Hnd Hu Hpu Hft Hto HA Hv Hsz.
  destruct (edge_facts H k P u from to e v Hnd Hu Hpu Hft Hto HA Hv) as (F1 & F2 & F3 & F4).
  unfold cut_dpen. simpl. rewrite !(pc_move H k P u from to e) by assumption.
  destruct F4 as [->|F4].
  - rewrite blk_move_same, (blk_some P u _ Hpu), Nat.eqb_refl. replace (Nat.eqb to from) with false by lia. simpl. bdest.
  - assert (Hvu : v <> u) by tauto. rewrite (blk_move_other P u to v Hvu).
    destruct F4 as [(_ & F4 & F5)|[(_ & F4 & F5)|(_ & c & F4 & F5 & F6 & F7)]]; rewrite (blk_some P v _ F4).
    + rewrite Nat.eqb_refl. replace (Nat.eqb from to) with false by lia. simpl. bdest.
    + rewrite Nat.eqb_refl. replace (Nat.eqb to from) with false by lia. simpl. bdest.
    + replace (Nat.eqb c to) with false by lia. replace (Nat.eqb c from) with false by lia. simpl.
      assert (pin_count H P e c < esize H e).
      { pose proof (two_pin_counts H P e c from F5). lia. }
      bdest.
Qed.

Theorem km1_delta_exact : delta_exact km1_delta km1_pt km1_bt false.
Proof.
  intros H k P u from to e c Hnd Hu Hpu Hft Hto HA P' su.
  destruct (km1_delta_eff H P' c su Hnd) as [A B]. simpl su_he in A, B. split.
  - intros v b. rewrite B. destruct (mem_spec v (pins H e)) as [Hv|_]; [|reflexivity].
    unfold P', su. rewrite <- (km1_ben_arith H k P u from to e b) by assumption. reflexivity.
  - intros v [Hvu|Hf]; [|discriminate]. rewrite A. destruct (mem_spec v (pins H e)) as [Hv|_]; [|reflexivity].
    unfold P', su. rewrite <- (km1_pen_arith H k P u from to e v) by assumption. reflexivity.
Qed.

Theorem cut_delta_exact : delta_exact cut_delta cut_pt cut_bt true.
Proof.
  intros H k P u from to e c Hnd Hu Hpu Hft Hto HA P' su. unfold cut_delta.
  assert (Es : su_size su = esize H e) by reflexivity. rewrite Es.
  destruct (Z.ltb_spec 1 (esize H e)) as [Hs|Hs].
  - destruct (cut_part_eff H c su Hnd) as [A B]. simpl su_he in A, B.
    assert (Hs' : (1 <? esize H e) = true) by lia. split.
    + intros v b. rewrite B. destruct (mem_spec v (pins H e)) as [Hv|_]; [|reflexivity].
      unfold cut_bt. rewrite Hs'. simpl.
      unfold P', su. rewrite <- (cut_ben_arith H k P u from to e b) by assumption. reflexivity.
    + intros v _. rewrite A. destruct (mem_spec v (pins H e)) as [Hv|_]; [|reflexivity].
      unfold cut_pt. rewrite Hs'. simpl.
      unfold P', su. rewrite <- (cut_pen_arith H k P u from to e v) by assumption. reflexivity.
  - assert (Hs' : (1 <? esize H e) = false) by lia. unfold cut_bt, cut_pt. rewrite Hs'. simpl.
    split; intros; destruct (mem v (pins H e)); lia.
Qed.

Theorem soed_delta_exact : delta_exact soed_delta soed_pt soed_bt false.
Proof.
  intros H k P u from to e c Hnd Hu Hpu Hft Hto HA P' su. unfold soed_delta.
  assert (Es : su_size su = esize H e) by reflexivity. rewrite Es.
  destruct (Z.ltb_spec 1 (esize H e)) as [Hs|Hs].
  - destruct (cut_part_eff H (km1_delta H P' c su) su Hnd) as [A B].
    destruct (km1_delta_eff H P' c su Hnd) as [A2 B2]. simpl su_he in A, B, A2, B2.
    assert (Hs' : (1 <? esize H e) = true) by lia. unfold soed_bt, soed_pt. rewrite Hs'. simpl Z.b2z. split.
    + intros v b. rewrite B, B2. destruct (mem_spec v (pins H e)) as [Hv|_]; [|lia].
      unfold P', su. rewrite (cut_ben_arith H k P u from to e b), (km1_ben_arith H k P u from to e b) by assumption.
      unfold km1_bt. ring.
    + intros v [Hvu|Hf]; [|discriminate]. rewrite A, A2. destruct (mem_spec v (pins H e)) as [Hv|_]; [|lia].
      unfold P', su.
      rewrite (cut_pen_arith H k P u from to e v), (km1_pen_arith H k P u from to e v) by assumption.
      unfold km1_pt. ring.
  - assert (Hs' : (1 <? esize H e) = false) by lia. unfold soed_bt, soed_pt. rewrite Hs'. simpl Z.b2z.
    split; intros; destruct (mem v (pins H e)); lia.
Qed.

(** ---------- whole moves ---------- *)
Section Policy.
Variables (G : gain_policy) (pt bt : Z -> Z -> Z) (all : bool).
Hypothesis HD : delta_exact (gp_delta G) pt bt all.

Lemma fold_delta H k P u from to l : wf_hg H -> In u (nodes H) -> P u = Some from -> from <> to -> (to < k)%nat ->
  complete H P k -> (forall e, In e l -> In e (inc H u)) -> forall c,
  let P' := move P u to in
  let c' := fold_left (gp_delta G H P')
     (map (fun e => mkSync e from to (ew H e) (Z.of_nat (length (pins H e))) (pin_count H P e from - 1) (pin_count H P e to + 1)) l) c in
  (forall v b, ben c' v b = ben c v b + sumZ (fun e => if mem v (pins H e) then
        ew H e * (bt (esize H e) (pin_count H P' e b) - bt (esize H e) (pin_count H P e b)) else 0) l) /\
  (forall v, (v <> u \/ all = true) -> pen c' v = pen c v + sumZ (fun e => if mem v (pins H e) then
        ew H e * (pt (esize H e) (pin_count H P' e (blk P' v)) - pt (esize H e) (pin_count H P e (blk P v))) else 0) l).
Proof.
  intros WF Hun Hpu Hft Hto HC. induction l as [|e l IH]; intros Hl c; cbv zeta; simpl.
  - split; intros; lia.
  - assert (He : In e (edges H) /\ In u (pins H e)) by (apply (wf_inc H WF u e Hun), Hl; left; reflexivity).
    destruct He as [He1 He2].
    destruct (HD H k P u from to e c (wf_pins_nodup H WF e He1) He2 Hpu Hft Hto) as [A B].
    { apply complete_pins; assumption. }
    unfold esize in A at 1, B at 1.
    destruct (IH (fun e' He' => Hl e' (or_intror He')) (gp_delta G H (move P u to) c
       (mkSync e from to (ew H e) (Z.of_nat (length (pins H e))) (pin_count H P e from - 1) (pin_count H P e to + 1)))) as [C D].
    split.
    + intros v b. rewrite C, A. lia.
    + intros v Hv. rewrite (D v Hv), (B v Hv). lia.
Qed.

(** Exchanging the roles of the two endpoints of "share an edge". *)
Lemma sum_shared H u v (f : nat -> Z) : wf_hg H -> In u (nodes H) -> In v (nodes H) ->
  sumZ (fun e => if mem v (pins H e) then f e else 0) (inc H u) =
  sumZ (fun e => if mem u (pins H e) then f e else 0) (inc H v).
Proof.
  intros WF Hu Hv. rewrite <- !sumZ_filter. apply sumZ_perm. apply NoDup_Permutation.
  - apply NoDup_filter_. apply WF; exact Hu.
  - apply NoDup_filter_. apply WF; exact Hv.
  - intros e. rewrite !filter_In, !mem_In, (wf_inc H WF u e Hu), (wf_inc H WF v e Hv). tauto.
Qed.

Definition cache_ok (H : hypergraph) (k : nat) (P : partition) (c : cache) (dirty : list nat) : Prop :=
  (forall v b, In v (nodes H) -> (b < k)%nat -> ben c v b = ben_of bt H P v b) /\
  (forall v, In v (nodes H) -> (~ In v dirty \/ all = true) -> pen c v = pen_of pt H P v).

Lemma move_cache_ok H k P u from to c dirty : wf_hg H -> In u (nodes H) -> P u = Some from -> from <> to -> (to < k)%nat ->
  complete H P k -> cache_ok H k P c dirty ->
  cache_ok H k (move P u to)
    (fold_left (gp_delta G H (move P u to))
     (map (fun e => mkSync e from to (ew H e) (Z.of_nat (length (pins H e))) (pin_count H P e from - 1) (pin_count H P e to + 1)) (inc H u)) c)
    (u :: dirty).
Proof.
  intros WF Hun Hpu Hft Hto HC [Cb Cp].
  destruct (fold_delta H k P u from to (inc H u) WF Hun Hpu Hft Hto HC (fun e He => He) c) as [A B].
  split.
  - intros v b Hv Hb. rewrite A, (Cb v b Hv Hb), (sum_shared H u v _ WF Hun Hv). unfold ben_of.
    rewrite <- sumZ_plus. apply sumZ_ext. intros e He. apply (wf_inc H WF v e Hv) in He. destruct He as [He1 He2].
    destruct (mem_spec u (pins H e)) as [Hi|Hi]; [ring|].
    rewrite (pin_count_ext H (move P u to) P e b); [ring|]. apply not_pin_ext. exact Hi.
  - intros v Hv Hd.
    assert (Hd' : v <> u \/ all = true) by (destruct Hd as [Hd|Hd]; [left; intros ->; apply Hd; left; reflexivity|right; exact Hd]).
    assert (Hd2 : ~ In v dirty \/ all = true) by (destruct Hd as [Hd|Hd]; [left; intros Hi; apply Hd; right; exact Hi|right; exact Hd]).
    rewrite (B v Hd'), (Cp v Hv Hd2), (sum_shared H u v _ WF Hun Hv). unfold pen_of.
    rewrite <- sumZ_plus. apply sumZ_ext. intros e He. apply (wf_inc H WF v e Hv) in He. destruct He as [He1 He2].
    destruct (mem_spec u (pins H e)) as [Hi|Hi]; [ring|].
    assert (Hvu : v <> u) by (intros ->; contradiction).
    rewrite (blk_move_other P u to v Hvu).
    rewrite (pin_count_ext H (move P u to) P e (blk P v)); [ring|]. apply not_pin_ext. exact Hi.
Qed.

Hypothesis HR : forall H s u, wf_hg H -> consistent H s -> complete H (part s) (pk s) -> In u (nodes H) ->
  gp_recompute G H s u = pen_of pt H (part s) u.

Lemma complete_move H P k u t : complete H P k -> (t < k)%nat -> complete H (move P u t) k.
Proof. intros C Ht v Hv. unfold move, upd. destruct (Nat.eqb v u); [exists t; tauto|apply C; exact Hv]. Qed.

Definition gc_inv (H : hypergraph) (k : nat) (st : phg * cache * list nat) : Prop :=
  let '(s, c, dirty) := st in
  consistent H s /\ complete H (part s) (pk s) /\ pk s = k /\ cache_ok H k (part s) c dirty.

Definition gc_op_ok (H : hypergraph) (o : gc_op) : Prop :=
  match o with GMove u _ _ _ => In u (nodes H) | GRecompute u => In u (nodes H) end.

Lemma gc_step_inv H k st o st' : wf_hg H -> gc_inv H k st -> gc_op_ok H o -> gc_step G H st o = Some st' -> gc_inv H k st'.
Proof.
  intros WF. destruct st as [[s c] dirty]. destruct o as [u f t m|u]; simpl; intros (C & HC & Hk & CO) Ho E.
  - unfold changeNodePartGC in E. destruct (changeNodePart H s u f t m) as [[[s2 ok] sus]|] eqn:Ech; [|discriminate].
    assert (Hpre : part s u = Some f /\ f <> t /\ (t < pk s)%nat).
    { unfold changeNodePart in Ech. destruct (_ && _ && _) eqn:Eg; [|discriminate].
      apply andb_true_iff in Eg. destruct Eg as [Eg E3]. apply andb_true_iff in Eg. destruct Eg as [E1 E2].
      apply in_block_true in E1. apply negb_true_iff, Nat.eqb_neq in E2. apply Nat.ltb_lt in E3. tauto. }
    destruct Hpre as (Hp & Hft & Ht).
    destruct (Z_le_gt_dec (wt s t + nw H u) m) as [Hle|Hgt].
    + destruct (change_accept H WF s u f t m C Ho Hp Hft Ht Hle) as (s3 & E3 & C3 & Ek & Epart).
      rewrite Ech in E3. injection E3 as -> -> ->. injection E as <-. simpl.
      rewrite Ek, Epart. split; [exact C3|]. split; [apply complete_move; assumption|]. split; [exact Hk|].
      subst k. apply move_cache_ok; assumption.
    + destruct (change_reject H s u f t m Hp Hft Ht ltac:(lia)) as (s3 & E3 & Ek & Ep & Ew & Epc & Ecs).
      rewrite Ech in E3. injection E3 as -> -> ->. injection E as <-. simpl.
      rewrite Ek, Ep. split; [eapply consistent_same; eauto|]. split; [exact HC|]. split; [exact Hk|exact CO].
  - injection E as <-. simpl. split; [exact C|]. split; [exact HC|]. split; [exact Hk|].
    destruct CO as [Cb Cp]. split; simpl.
    + exact Cb.
    + intros v Hv Hd. unfold upd. destruct (Nat.eqb_spec v u) as [->|Hvu]; [apply HR; assumption|].
      apply Cp; [exact Hv|]. destruct Hd as [Hd|Hd]; [left|right; exact Hd].
      intros Hi. apply Hd. apply in_in_remove; assumption.
Qed.

Lemma gc_run_inv H k l : forall st st', wf_hg H -> gc_inv H k st -> Forall (gc_op_ok H) l -> gc_run G H st l = Some st' -> gc_inv H k st'.
Proof.
  induction l as [|o l IH]; intros st st' WF I F E; unfold gc_run in *; simpl in E.
  - injection E as <-. exact I.
  - inversion F as [|x y Ho Hl]; subst. destruct (gc_step G H st o) as [st1|] eqn:E1; [|discriminate].
    apply (IH st1 st' WF); [eapply gc_step_inv; eauto|exact Hl|exact E].
Qed.

(** Initialization. *)
Hypothesis HIp : forall H s e b, wf_hg H -> consistent H s -> complete H (part s) (pk s) -> In e (edges H) -> (b < pk s)%nat ->
  gp_init_pen G H s b e = ew H e * pt (esize H e) (pin_count H (part s) e b).
Hypothesis HIb : forall H s e b, wf_hg H -> consistent H s -> complete H (part s) (pk s) -> In e (edges H) -> pins H e <> [] -> (b < pk s)%nat ->
  agg b (gp_init_ben G H s e) = ew H e * bt (esize H e) (pin_count H (part s) e b).

Lemma init_fold H s sched l : NoDup l -> forall c,
  let c' := fold_left (fun c u => initEntry G H s c u (sched u)) l c in
  (forall v, In v l -> pen c' v = sumZ (fun ch => sumZ (gp_init_pen G H s (blk (part s) v)) ch) (sched v) /\
    forall b, (b < pk s)%nat -> ben c' v b = sumZ (fun ch => sumZ (fun e => agg b (gp_init_ben G H s e)) ch) (sched v)) /\
  (forall v, ~ In v l -> pen c' v = pen c v /\ forall b, ben c' v b = ben c v b).
Proof.
  induction l as [|a l IH]; intros Hnd c; cbv zeta; simpl.
  - split; [intros v []|intros v _; split; reflexivity].
  - inversion Hnd as [|x y Hni Hnd']; subst.
    destruct (IH Hnd' (initEntry G H s c a (sched a))) as [A B]. split.
    + intros v [<-|Hv]; [|apply A; exact Hv].
      destruct (B a Hni) as [B1 B2]. rewrite B1. split; [simpl; apply upd_same|].
      intros b Hb. rewrite B2. simpl. rewrite Nat.eqb_refl. replace (b <? pk s)%nat with true by lia. reflexivity.
    + intros v Hv. destruct (B v) as [B1 B2]; [tauto|]. assert (Hva : v <> a) by (intros ->; tauto).
      rewrite B1. split; [simpl; apply upd_other; exact Hva|].
      intros b. rewrite B2. simpl. replace (Nat.eqb v a) with false by lia. reflexivity.
Qed.

Lemma init_cache_ok H s sched c : wf_hg H -> consistent H s -> complete H (part s) (pk s) ->
  (forall u, In u (nodes H) -> Permutation (concat (sched u)) (inc H u)) ->
  gc_inv H (pk s) (s, initializeGainCache G H s sched c, []).
Proof.
  intros WF C HC Hs. simpl. split; [exact C|]. split; [exact HC|]. split; [reflexivity|].
  unfold initializeGainCache. destruct (init_fold H s sched (nodes H) (wf_nodes H WF) c) as [A _].
  split.
  - intros v b Hv Hb. destruct (A v Hv) as [_ A2]. rewrite A2 by exact Hb.
    rewrite <- sumZ_concat, (sumZ_perm _ _ _ (Hs v Hv)). unfold ben_of. apply sumZ_ext.
    intros e He. apply (wf_inc H WF v e Hv) in He. destruct He as [He1 He2]. apply HIb; try assumption.
    intros E; rewrite E in He2; destruct He2.
  - intros v Hv _. destruct (A v Hv) as [A1 _]. rewrite A1.
    rewrite <- sumZ_concat, (sumZ_perm _ _ _ (Hs v Hv)). unfold pen_of. apply sumZ_ext.
    intros e He. apply (wf_inc H WF v e Hv) in He. destruct He as [He1 He2]. apply HIp; try assumption.
    destruct (HC v Hv) as [b [Hb Hk]]. unfold blk. rewrite Hb. exact Hk.
Qed.

(** End-to-end: after initialization and any session. *)
Lemma session_ok H s sched c ops st' : wf_hg H -> consistent H s -> complete H (part s) (pk s) ->
  (forall u, In u (nodes H) -> Permutation (concat (sched u)) (inc H u)) ->
  Forall (gc_op_ok H) ops ->
  gc_run G H (s, initializeGainCache G H s sched c, []) ops = Some st' ->
  gc_inv H (pk s) st'.
Proof. intros. eapply gc_run_inv; eauto. apply init_cache_ok; assumption. Qed.

End Policy.

(** ---------- instances ---------- *)
Lemma agg_map b (l : list nat) (f : nat -> Z) : NoDup l -> agg b (map (fun c => (c, f c)) l) = if mem b l then f b else 0.
Proof.
  intros Hnd. unfold agg. rewrite sumZ_map. simpl. rewrite <- (sumZ_indicator l b f Hnd). reflexivity.
Qed.
Lemma connectivitySet_nodup s e : NoDup (connectivitySet s e).
Proof. unfold connectivitySet. apply NoDup_filter_, seq_NoDup. Qed.
Lemma mem_connectivitySet H s e b : consistent H s -> In e (edges H) -> (b < pk s)%nat ->
  mem b (connectivitySet s e) = (0 <? pin_count H (part s) e b).
Proof.
  intros C He Hb. pose proof (c_cs H s C e b He Hb) as E. rewrite (c_pc H s C e b He Hb) in E. rewrite <- E.
  unfold connectivitySet. destruct (cs s e b) eqn:Ec.
  - apply mem_In, filter_In. split; [apply in_seq; lia|exact Ec].
  - apply mem_false. rewrite filter_In. intros [_ X]. congruence.
Qed.

Lemma km1_HR H s u : wf_hg H -> consistent H s -> complete H (part s) (pk s) -> In u (nodes H) ->
  km1_recompute_pen H s u = pen_of km1_pt H (part s) u.
Proof.
  intros WF C HC Hu. unfold km1_recompute_pen, pen_of. apply sumZ_ext. intros e He.
  apply (wf_inc H WF u e Hu) in He. destruct He as [He _].
  assert (Hb : (blk (part s) u < pk s)%nat) by (destruct (HC u Hu) as [b [E ?]]; unfold blk; rewrite E; assumption).
  unfold pinCountInPart, km1_pt. rewrite (c_pc H s C e _ He Hb). destruct (Z.ltb_spec 1 (pin_count H (part s) e (blk (part s) u))); simpl; lia.
Qed.
Lemma km1_HIp H s e b : wf_hg H -> consistent H s -> complete H (part s) (pk s) -> In e (edges H) -> (b < pk s)%nat ->
  km1_init_pen H s b e = ew H e * km1_pt (esize H e) (pin_count H (part s) e b).
Proof.
  intros WF C _ He Hb. unfold km1_init_pen, km1_pt, pinCountInPart. rewrite (c_pc H s C e b He Hb).
  destruct (1 <? _); simpl; lia.
Qed.
Lemma km1_HIb H s e b : wf_hg H -> consistent H s -> complete H (part s) (pk s) -> In e (edges H) -> pins H e <> [] -> (b < pk s)%nat ->
  agg b (km1_init_ben H s e) = ew H e * km1_bt (esize H e) (pin_count H (part s) e b).
Proof.
  intros WF C _ He _ Hb. unfold km1_init_ben. rewrite (agg_map b _ (fun _ => ew H e)) by apply connectivitySet_nodup.
  rewrite (mem_connectivitySet H s e b C He Hb). unfold km1_bt.
  destruct (Z.ltb_spec 0 (pin_count H (part s) e b)); destruct (Z.leb_spec 1 (pin_count H (part s) e b)); simpl; lia.
Qed.

Lemma conn_eq H s e : wf_hg H -> consistent H s -> In e (edges H) -> conn s e = connectivity H (part s) e.
Proof.
  intros WF C He. unfold conn. rewrite (connectivity_count H (part s) (pk s) e).
  - apply countb_ext. intros b Hb. rewrite (c_cs H s C e b He Hb), (c_pc H s C e b He Hb). reflexivity.
  - intros v b _ Hb. eapply c_part; eauto.
Qed.

(** If some block holds at least size-1 pins, at most two blocks are touched. *)
Lemma conn_le2 H P e b : 1 < esize H e -> esize H e - 1 <= pin_count H P e b -> connectivity H P e <= 2.
Proof.
  intros Hs Hb. destruct (Z_le_gt_dec (connectivity H P e) 2) as [|Hgt]; [assumption|exfalso].
  unfold connectivity in Hgt.
  assert (Hin : In b (blocks_of H P e)) by (apply in_blocks_of; lia).
  pose proof (blocks_of_nodup H P e) as Hnd.
  (* two further blocks *)
  assert (X : exists c d, c <> d /\ c <> b /\ d <> b /\ In c (blocks_of H P e) /\ In d (blocks_of H P e)).
  { set (l := filter (fun x => negb (Nat.eqb x b)) (blocks_of H P e)).
    assert (Hl : (2 <= length l)%nat).
    { assert (Y : incl (blocks_of H P e) (b :: l)).
      { intros x Hx. destruct (Nat.eq_dec x b) as [->|Hn]; [left; reflexivity|right].
        apply filter_In. split; [exact Hx|]. apply negb_true_iff, Nat.eqb_neq. exact Hn. }
      apply NoDup_incl_length in Y; [|exact Hnd]. simpl in Y. lia. }
    assert (Hndl : NoDup l) by (apply NoDup_filter_; exact Hnd).
    destruct l as [|c [|d r]] eqn:El; simpl in Hl; try lia.
    assert (Hc : In c l) by (rewrite El; left; reflexivity). assert (Hd : In d l) by (rewrite El; right; left; reflexivity).
    unfold l in Hc, Hd. apply filter_In in Hc, Hd. destruct Hc as [Hc1 Hc2], Hd as [Hd1 Hd2].
    apply negb_true_iff, Nat.eqb_neq in Hc2, Hd2.
    exists c, d. split; [|tauto]. inversion Hndl as [|x y Hni _]; subst. intros ->. apply Hni. left. reflexivity. }
  destruct X as (c & d & Hcd & Hcb & Hdb & Hc & Hd). apply in_blocks_of in Hc, Hd.
  pose proof (three_pin_counts H P e b c d ltac:(congruence) ltac:(congruence) Hcd). lia.
Qed.

Lemma cut_HR H s u : wf_hg H -> consistent H s -> complete H (part s) (pk s) -> In u (nodes H) ->
  cut_recompute_pen H s u = pen_of cut_pt H (part s) u.
Proof.
  intros WF C HC Hu. unfold cut_recompute_pen, pen_of. apply sumZ_ext. intros e He.
  apply (wf_inc H WF u e Hu) in He. destruct He as [He _].
  assert (Hb : (blk (part s) u < pk s)%nat) by (destruct (HC u Hu) as [b [E ?]]; unfold blk; rewrite E; assumption).
  unfold pinCountInPart, cut_pt, size_of. rewrite (c_pc H s C e _ He Hb). fold (esize H e).
  destruct (_ && _); simpl; lia.
Qed.
Lemma cut_HIp H s e b : wf_hg H -> consistent H s -> complete H (part s) (pk s) -> In e (edges H) -> (b < pk s)%nat ->
  cut_init_pen H s b e = ew H e * cut_pt (esize H e) (pin_count H (part s) e b).
Proof.
  intros WF C _ He Hb. unfold cut_init_pen, cut_pt, pinCountInPart, size_of.
  rewrite (c_pc H s C e b He Hb), (conn_eq H s e WF C He). fold (esize H e).
  destruct (Z.ltb_spec 1 (esize H e)); simpl; [|lia].
  destruct (Z.eqb_spec (pin_count H (part s) e b) (esize H e)) as [E|E]; simpl.
  - pose proof (conn_le2 H (part s) e b ltac:(lia) ltac:(lia)).
    destruct (Z.leb_spec (connectivity H (part s) e) 2); lia.
  - destruct (connectivity H (part s) e <=? 2); lia.
Qed.
Lemma cut_HIb H s e b : wf_hg H -> consistent H s -> complete H (part s) (pk s) -> In e (edges H) -> pins H e <> [] -> (b < pk s)%nat ->
  agg b (cut_init_ben H s e) = ew H e * cut_bt (esize H e) (pin_count H (part s) e b).
Proof.
  intros WF C _ He _ Hb. unfold cut_init_ben, cut_bt, size_of. rewrite (conn_eq H s e WF C He). fold (esize H e).
  destruct (Z.ltb_spec 1 (esize H e)); simpl; [|unfold agg; simpl; lia].
  assert (X : agg b (flat_map (fun b0 : nat => if pinCountInPart s e b0 =? esize H e - 1 then [(b0, ew H e)] else [])
                        (connectivitySet s e)) = ew H e * Z.b2z (pin_count H (part s) e b =? esize H e - 1)).
  { unfold agg. rewrite sumZ_flat_map.
    rewrite (sumZ_ext _ (fun c => if Nat.eqb c b then (if pinCountInPart s e c =? esize H e - 1 then ew H e else 0) else 0)).
    2:{ intros c _. destruct (pinCountInPart s e c =? esize H e - 1); simpl; destruct (Nat.eqb c b); lia. }
    rewrite sumZ_indicator by apply connectivitySet_nodup.
    rewrite (mem_connectivitySet H s e b C He Hb). unfold pinCountInPart. rewrite (c_pc H s C e b He Hb).
    destruct (Z.ltb_spec 0 (pin_count H (part s) e b)); destruct (Z.eqb_spec (pin_count H (part s) e b) (esize H e - 1)); simpl; lia. }
  destruct (Z.eqb_spec (pin_count H (part s) e b) (esize H e - 1)) as [E|E].
  - pose proof (conn_le2 H (part s) e b ltac:(lia) ltac:(lia)).
    destruct (Z.leb_spec (connectivity H (part s) e) 2); [|lia]. exact X.
  - destruct (connectivity H (part s) e <=? 2); [exact X|]. unfold agg; simpl; lia.
Qed.

Lemma soed_HR H s u : wf_hg H -> consistent H s -> complete H (part s) (pk s) -> In u (nodes H) ->
  soed_recompute_pen H s u = pen_of soed_pt H (part s) u.
Proof.
  intros WF C HC Hu. unfold soed_recompute_pen, pen_of. apply sumZ_ext. intros e He.
  apply (wf_inc H WF u e Hu) in He. destruct He as [He _].
  assert (Hb : (blk (part s) u < pk s)%nat) by (destruct (HC u Hu) as [b [E ?]]; unfold blk; rewrite E; assumption).
  unfold pinCountInPart, soed_pt, size_of. rewrite (c_pc H s C e _ He Hb). fold (esize H e). ring.
Qed.
Lemma soed_HIp H s e b : wf_hg H -> consistent H s -> complete H (part s) (pk s) -> In e (edges H) -> (b < pk s)%nat ->
  soed_init_pen H s b e = ew H e * soed_pt (esize H e) (pin_count H (part s) e b).
Proof.
  intros WF C _ He Hb. unfold soed_init_pen, soed_pt, pinCountInPart, size_of. rewrite (c_pc H s C e b He Hb).
  fold (esize H e). destruct (1 <? esize H e); simpl Z.b2z; ring.
Qed.
Lemma soed_HIb H s e b : wf_hg H -> consistent H s -> complete H (part s) (pk s) -> In e (edges H) -> pins H e <> [] -> (b < pk s)%nat ->
  agg b (soed_init_ben H s e) = ew H e * soed_bt (esize H e) (pin_count H (part s) e b).
Proof.
  intros WF C _ He _ Hb. unfold soed_init_ben, soed_bt, size_of. fold (esize H e).
  destruct (Z.ltb_spec 1 (esize H e)); simpl Z.b2z; [|unfold agg; simpl; lia].
  rewrite (agg_map b _ (fun b0 => (1 + Z.b2z (pinCountInPart s e b0 =? esize H e - 1)) * ew H e)) by apply connectivitySet_nodup.
  rewrite (mem_connectivitySet H s e b C He Hb). unfold pinCountInPart. rewrite (c_pc H s C e b He Hb).
  pose proof (pin_count_nonneg H (part s) e b).
  destruct (Z.ltb_spec 0 (pin_count H (part s) e b)); destruct (Z.leb_spec 1 (pin_count H (part s) e b));
    destruct (Z.eqb_spec (pin_count H (part s) e b) (esize H e - 1)); simpl Z.b2z; lia.
Qed.

(** ---------- gain = objective difference ---------- *)
Section Gains.
Variables (H : hypergraph) (k : nat) (P : partition) (u from to : nat).
Hypothesis (WF : wf_hg H) (Hun : In u (nodes H)) (Hpu : P u = Some from) (Hft : from <> to)
           (Hto : (to < k)%nat) (HC : complete H P k).

Lemma pc_from_ge1 e : In e (inc H u) -> 1 <= pin_count H P e from.
Proof.
  intros He. apply (wf_inc H WF u e Hun) in He.
  assert (0 < pin_count H P e from) by (apply pin_count_pos_iff; exists u; tauto). lia.
Qed.

Lemma km1_gain_objective : ben_of km1_bt H P u to - pen_of km1_pt H P u = km1 H P - km1 H (move P u to).
Proof.
  pose proof (km1_move H k P u from to WF Hun Hpu Hft Hto HC) as E.
  unfold ben_of, pen_of. rewrite (blk_some P u from Hpu), <- sumZ_minus.
  replace (km1 H P - km1 H (move P u to)) with (- (km1 H (move P u to) - km1 H P)) by lia. rewrite E, <- sumZ_opp.
  apply sumZ_ext. intros e He. pose proof (pc_from_ge1 e He). pose proof (pin_count_nonneg H P e to).
  unfold km1_bt, km1_pt. bdest.
Qed.

Lemma cut_gain_objective : ben_of cut_bt H P u to - pen_of cut_pt H P u = cut H P - cut H (move P u to).
Proof.
  pose proof (cut_move H k P u from to WF Hun Hpu Hft Hto HC) as E.
  unfold ben_of, pen_of. rewrite (blk_some P u from Hpu), <- sumZ_minus.
  replace (cut H P - cut H (move P u to)) with (- (cut H (move P u to) - cut H P)) by lia. rewrite E, <- sumZ_opp.
  apply sumZ_ext. intros e He. pose proof (pc_from_ge1 e He). pose proof (pin_count_nonneg H P e to).
  pose proof (two_pin_counts H P e from to Hft).
  unfold cut_bt, cut_pt. destruct (Z.ltb_spec 1 (esize H e)); simpl andb; simpl Z.b2z; bdest.
Qed.

Lemma soed_gain_objective : ben_of soed_bt H P u to - pen_of soed_pt H P u = soed H P - soed H (move P u to).
Proof.
  pose proof (soed_move H k P u from to WF Hun Hpu Hft Hto HC) as E.
  unfold ben_of, pen_of. rewrite (blk_some P u from Hpu), <- sumZ_minus.
  replace (soed H P - soed H (move P u to)) with (- (soed H (move P u to) - soed H P)) by lia. rewrite E, <- sumZ_opp.
  apply sumZ_ext. intros e He. pose proof (pc_from_ge1 e He). pose proof (pin_count_nonneg H P e to).
  pose proof (two_pin_counts H P e from to Hft).
  unfold soed_bt, soed_pt. destruct (Z.ltb_spec 1 (esize H e)); simpl Z.b2z; bdest.
Qed.

(** Attributed gains of one accepted move = objective difference. *)
Definition sus_of : list sync_update :=
  map (fun e => mkSync e from to (ew H e) (Z.of_nat (length (pins H e))) (pin_count H P e from - 1) (pin_count H P e to + 1)) (inc H u).

Lemma km1_attributed : sumZ km1_gain_of sus_of = km1 H (move P u to) - km1 H P.
Proof.
  rewrite (km1_move H k P u from to WF Hun Hpu Hft Hto HC). unfold sus_of. rewrite sumZ_map. apply sumZ_ext.
  intros e He. unfold km1_gain_of. simpl. bdest.
Qed.
Lemma cut_attributed : sumZ cut_gain_of sus_of = cut H (move P u to) - cut H P.
Proof.
  rewrite (cut_move H k P u from to WF Hun Hpu Hft Hto HC). unfold sus_of. rewrite sumZ_map. apply sumZ_ext.
  intros e He. unfold cut_gain_of. simpl. fold (esize H e).
  pose proof (pc_from_ge1 e He). pose proof (pin_count_nonneg H P e to).
  pose proof (two_pin_counts H P e from to Hft).
  destruct (Z.ltb_spec 1 (esize H e)); bdest.
Qed.
Lemma soed_attributed : sumZ soed_gain_of sus_of = soed H (move P u to) - soed H P.
Proof.
  rewrite (soed_move H k P u from to WF Hun Hpu Hft Hto HC). unfold sus_of. rewrite sumZ_map. apply sumZ_ext.
  intros e He. unfold soed_gain_of. cbv zeta. cbn [su_he su_from su_to su_weight su_size su_from_after su_to_after]. fold (esize H e).
  pose proof (pc_from_ge1 e He). pose proof (pin_count_nonneg H P e to).
  pose proof (two_pin_counts H P e from to Hft).
  destruct (Z.ltb_spec 1 (esize H e)); simpl Z.b2z; bdest.
Qed.
End Gains.

(** Index map is injective: distinct (node, entry) pairs use distinct slots of the table. *)
Lemma gain_index_injective k u u' p p' : (p < k)%nat -> (p' < k)%nat ->
  (penalty_index k u = penalty_index k u' -> u = u') /\
  (benefit_index k u p = benefit_index k u' p' -> u = u' /\ p = p') /\
  penalty_index k u <> benefit_index k u' p'.
Proof.
  intros Hp Hp'. unfold penalty_index, benefit_index.
  assert (D : forall q, (q < k)%nat -> forall w, ((w * (k + 1) + q + 1) / (k + 1) = w /\ (w * (k + 1) + q + 1) mod (k + 1) = q + 1)%nat).
  { intros q Hq w. replace (w * (k + 1) + q + 1)%nat with ((q + 1) + w * (k + 1))%nat by lia.
    rewrite Nat.div_add, Nat.mod_add, Nat.div_small, Nat.mod_small by lia. lia. }
  split; [intros E; apply Nat.mul_cancel_r in E; lia|]. split.
  - intros E. destruct (D p Hp u) as [A1 A2]. destruct (D p' Hp' u') as [B1 B2]. rewrite E in A1, A2. lia.
  - intros E. destruct (D p' Hp' u') as [B1 B2]. rewrite <- E in B2. rewrite Nat.mod_mul in B2 by lia. lia.
Qed.
