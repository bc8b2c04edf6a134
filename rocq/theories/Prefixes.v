(** Prefixes.v - deterministic label propagation: the search for the best pair of prefixes of the moves between two blocks,
    mt-kahypar/partition/refinement/deterministic/deterministic_label_propagation.cpp:401-505.
    c1 e (c2 e) is the weight of the first e moves from block p1 to p2 (p2 to p1): cumulative_node_weights[begin + e - 1], or 0 for
    the "invalid" position in front of the segment.  Positions are counted from the beginning of the segment. *)
From Verif Require Import Base.

Section Prefixes.
Variables (c1 c2 : nat -> Z) (lb ub : Z) (cutoff : nat).
(** cpp:406-420, 482-491 (balance, is_feasible) *)
Definition bal (e1 e2 : nat) : Z := c1 e1 - c2 e2.
Definition feas (e1 e2 : nat) : bool := (lb <=? bal e1 e2) && (bal e1 e2 <=? ub).
(** findBestPrefixesSequentially, cpp:493-504; the result (invalid_pos, invalid_pos) is None. *)
Fixpoint seqf (fuel b1 e1 b2 e2 : nat) : option (nat * nat) :=
  match fuel with
  | O => None
  | S n => if feas e1 e2 then Some (e1, e2)
           else if bal e1 e2 <? 0 then if Nat.eqb e2 b2 then None else seqf n b1 e1 b2 (e2 - 1)
                else if Nat.eqb e1 b1 then None else seqf n b1 (e1 - 1) b2 e2
  end.
Definition seqs (b1 e1 b2 e2 : nat) : option (nat * nat) := seqf (S (e1 + e2)) b1 e1 b2 e2.
(** std::lower_bound on cumulative_node_weights[lo, hi): the first position whose entry is at least x, or hi. *)
Fixpoint lbnd (c : nat -> Z) (n j : nat) (x : Z) : nat :=
  match n with O => j | S n => if x <=? c (S j) then j else lbnd c n (S j) x end.
Definition lower_bound (c : nat -> Z) (lo hi : nat) (x : Z) : nat := lbnd c (hi - lo) lo x.
(** findBestPrefixesRecursive, cpp:422-474.  The two calls of the parallel_invoke are independent. *)
Fixpoint recf (fuel b1 e1 b2 e2 : nat) : option (nat * nat) :=
  match fuel with
  | O => None
  | S n =>
    let n1 := (e1 - b1)%nat in let n2 := (e2 - b2)%nat in
    if Nat.ltb n1 cutoff && Nat.ltb n2 cutoff then seqs b1 e1 b2 e2
    else if Nat.ltb n2 n1 then
      let mid := (b1 + Nat.div n1 2)%nat in
      let mt := lower_bound c2 b2 e2 (c1 (S mid)) in
      if negb (Nat.eqb mt e2) && negb (Nat.eqb mid e1) && feas (S mid) (S mt) then recf n (S mid) e1 (S mt) e2
      else if Nat.eqb mt e2 && (ub <? bal (S mid) e2) then recf n b1 mid b2 mt
      else match recf n mid e1 mt e2 with Some x => Some x | None => recf n b1 mid b2 mt end
    else
      let mid := (b2 + Nat.div n2 2)%nat in
      let mt := lower_bound c1 b1 e1 (c2 (S mid)) in
      if negb (Nat.eqb mt e1) && negb (Nat.eqb mid e2) && feas (S mt) (S mid) then recf n (S mt) e1 (S mid) e2
      else if Nat.eqb mt e1 && (bal e1 (S mid) <? lb) then recf n b1 mt b2 mid
      else match recf n mt e1 mid e2 with Some x => Some x | None => recf n b1 mt b2 mid end
  end.

Lemma feas_spec e1 e2 : feas e1 e2 = true <-> lb <= bal e1 e2 <= ub.
Proof using. unfold feas. rewrite andb_true_iff, !Z.leb_le. tauto. Qed.
Lemma feas_false e1 e2 : feas e1 e2 = false <-> bal e1 e2 < lb \/ ub < bal e1 e2.
Proof using. destruct (feas e1 e2) eqn:E; [rewrite feas_spec in E; split; [discriminate|lia]|]. split; [intros _|reflexivity].
  destruct (Z_lt_le_dec (bal e1 e2) lb); [auto|]. destruct (Z_lt_le_dec ub (bal e1 e2)); [auto|].
  assert (feas e1 e2 = true) by (apply feas_spec; lia). congruence. Qed.
Lemma seqf_fuel : forall n m b1 e1 b2 e2, (e1 + e2 < n)%nat -> (e1 + e2 < m)%nat -> (b1 <= e1)%nat -> (b2 <= e2)%nat ->
  seqf n b1 e1 b2 e2 = seqf m b1 e1 b2 e2.
Proof using.
  induction n as [|n IH]; intros m b1 e1 b2 e2 Hn Hm L1 L2; [lia|]. destruct m as [|m]; [lia|]. cbn [seqf].
  destruct (feas e1 e2); [reflexivity|]. destruct (bal e1 e2 <? 0).
  - destruct (Nat.eqb_spec e2 b2); [reflexivity|]. apply IH; lia.
  - destruct (Nat.eqb_spec e1 b1); [reflexivity|]. apply IH; lia.
Qed.
Lemma seqs_eq b1 e1 b2 e2 : (b1 <= e1)%nat -> (b2 <= e2)%nat -> seqs b1 e1 b2 e2 =
  if feas e1 e2 then Some (e1, e2)
  else if bal e1 e2 <? 0 then if Nat.eqb e2 b2 then None else seqs b1 e1 b2 (e2 - 1)
       else if Nat.eqb e1 b1 then None else seqs b1 (e1 - 1) b2 e2.
Proof using.
  intros L1 L2. unfold seqs at 1. cbn [seqf]. destruct (feas e1 e2); [reflexivity|]. destruct (bal e1 e2 <? 0).
  - destruct (Nat.eqb_spec e2 b2); [reflexivity|]. apply seqf_fuel; lia.
  - destruct (Nat.eqb_spec e1 b1); [reflexivity|]. apply seqf_fuel; lia.
Qed.
Hypothesis M1 : forall i j, (i <= j)%nat -> c1 i <= c1 j.
Hypothesis M2 : forall i j, (i <= j)%nat -> c2 i <= c2 j.
Hypothesis LB : lb <= 0.
Hypothesis UB : 0 <= ub.
(** ** What the sequential search returns *)
Lemma seqs_some : forall n b1 e1 b2 e2 x y, (e1 + e2 <= n)%nat -> (b1 <= e1)%nat -> (b2 <= e2)%nat -> seqs b1 e1 b2 e2 = Some (x, y) ->
  (b1 <= x <= e1)%nat /\ (b2 <= y <= e2)%nat /\ feas x y = true /\
  (forall x' y', (x' <= e1)%nat -> (y' <= e2)%nat -> feas x' y' = true -> (x' <= x)%nat /\ (y' <= y)%nat).
Proof using M1 M2 LB UB.
  induction n as [|n IH]; intros b1 e1 b2 e2 x y Hn L1 L2; rewrite seqs_eq by lia; destruct (feas e1 e2) eqn:F.
  - intros E. inversion E; subst. repeat split; try lia; assumption.
  - destruct (_ <? 0); [destruct (Nat.eqb_spec e2 b2)|destruct (Nat.eqb_spec e1 b1)]; [discriminate|lia|discriminate|lia].
  - intros E. inversion E; subst. repeat split; try lia; assumption.
  - apply feas_false in F. destruct (Z.ltb_spec (bal e1 e2) 0) as [Ln|Ln].
    + destruct (Nat.eqb_spec e2 b2); [discriminate|]. intros E. apply IH in E; try lia. destruct E as (A & B & C & D).
      split; [lia|]. split; [lia|]. split; [exact C|]. intros x' y' Lx Ly Fx.
      destruct (Nat.eq_dec y' e2) as [->|Ny]; [|apply D; [lia|lia|exact Fx]]. exfalso.
      apply feas_spec in Fx. pose proof (M1 x' e1 Lx). unfold bal in *. lia.
    + destruct (Nat.eqb_spec e1 b1); [discriminate|]. intros E. apply IH in E; try lia. destruct E as (A & B & C & D).
      split; [lia|]. split; [lia|]. split; [exact C|]. intros x' y' Lx Ly Fx.
      destruct (Nat.eq_dec x' e1) as [->|Nx]; [|apply D; [lia|lia|exact Fx]]. exfalso.
      apply feas_spec in Fx. pose proof (M2 y' e2 Ly). unfold bal in *. lia.
Qed.
(** If the bottom of the ranges is feasible, a feasible pair is found. *)
Lemma seqs_found : forall n b1 e1 b2 e2, (e1 + e2 <= n)%nat -> (b1 <= e1)%nat -> (b2 <= e2)%nat -> feas b1 b2 = true -> seqs b1 e1 b2 e2 <> None.
Proof using M1 M2 LB UB.
  induction n as [|n IH]; intros b1 e1 b2 e2 Hn L1 L2 FB; rewrite seqs_eq by lia; destruct (feas e1 e2) eqn:F; try discriminate.
  - replace e1 with b1 in F by lia. replace e2 with b2 in F by lia. congruence.
  - apply feas_false in F. apply feas_spec in FB. destruct (Z.ltb_spec (bal e1 e2) 0) as [Ln|Ln].
    + destruct (Nat.eqb_spec e2 b2) as [E|]; [|apply IH; try lia; apply feas_spec; exact FB].
      exfalso. pose proof (M1 b1 e1 L1). rewrite E in *. unfold bal in *. lia.
    + destruct (Nat.eqb_spec e1 b1) as [E|]; [|apply IH; try lia; apply feas_spec; exact FB].
      exfalso. pose proof (M2 b2 e2 L2). rewrite E in *. unfold bal in *. lia.
Qed.
(** Shrinking the ranges from below does not change the result if the new bottom is feasible. *)
Lemma seqs_shrink : forall n b1 e1 b2 e2 a1 a2, (e1 + e2 <= n)%nat -> (b1 <= a1 <= e1)%nat -> (b2 <= a2 <= e2)%nat -> feas a1 a2 = true ->
  seqs b1 e1 b2 e2 = seqs a1 e1 a2 e2.
Proof using M1 M2 LB UB.
  induction n as [|n IH]; intros b1 e1 b2 e2 a1 a2 Hn L1 L2 FB; rewrite (seqs_eq b1), (seqs_eq a1) by lia; destruct (feas e1 e2) eqn:F; try reflexivity.
  - replace e1 with a1 in F by lia. replace e2 with a2 in F by lia. congruence.
  - apply feas_false in F. assert (FB' := FB). apply feas_spec in FB'. destruct (Z.ltb_spec (bal e1 e2) 0) as [Ln|Ln].
    + destruct (Nat.eqb_spec e2 a2) as [E|]; [exfalso; pose proof (M1 a1 e1 ltac:(lia)); rewrite E in *; unfold bal in *; lia|].
      destruct (Nat.eqb_spec e2 b2); [lia|]. apply IH; lia || exact FB.
    + destruct (Nat.eqb_spec e1 a1) as [E|]; [exfalso; pose proof (M2 a2 e2 ltac:(lia)); rewrite E in *; unfold bal in *; lia|].
      destruct (Nat.eqb_spec e1 b1); [lia|]. apply IH; lia || exact FB.
Qed.
(** Dropping a suffix of the moves from p1 (from p2) that cannot be compensated. *)
Lemma seqs_drop1 : forall d b1 m b2 e2, (b1 <= m)%nat -> (b2 <= e2)%nat -> ub < bal (S m) e2 -> seqs b1 (m + d) b2 e2 = seqs b1 m b2 e2.
Proof using M1 M2 LB UB.
  induction d as [|d IH]; intros b1 m b2 e2 L1 L2 B; [rewrite Nat.add_0_r; reflexivity|].
  rewrite seqs_eq by lia. pose proof (M1 (S m) (m + S d) ltac:(lia)).
  assert (X : ub < bal (m + S d) e2) by (unfold bal in *; lia).
  destruct (feas (m + S d) e2) eqn:F; [apply feas_spec in F; lia|]. destruct (Z.ltb_spec (bal (m + S d) e2) 0); [lia|].
  destruct (Nat.eqb_spec (m + S d) b1); [lia|]. replace (m + S d - 1)%nat with (m + d)%nat by lia. apply IH; assumption.
Qed.
Lemma seqs_drop2 : forall d b1 e1 b2 m, (b1 <= e1)%nat -> (b2 <= m)%nat -> bal e1 (S m) < lb -> seqs b1 e1 b2 (m + d) = seqs b1 e1 b2 m.
Proof using M1 M2 LB UB.
  induction d as [|d IH]; intros b1 e1 b2 m L1 L2 B; [rewrite Nat.add_0_r; reflexivity|].
  rewrite seqs_eq by lia. pose proof (M2 (S m) (m + S d) ltac:(lia)).
  assert (X : bal e1 (m + S d) < lb) by (unfold bal in *; lia).
  destruct (feas e1 (m + S d)) eqn:F; [apply feas_spec in F; lia|]. destruct (Z.ltb_spec (bal e1 (m + S d)) 0); [|lia].
  destruct (Nat.eqb_spec (m + S d) b2); [lia|]. replace (m + S d - 1)%nat with (m + d)%nat by lia. apply IH; assumption.
Qed.
(** Splitting at a point of the merge path. *)
Lemma seqs_split : forall n b1 e1 b2 e2 m1 m2, (e1 + e2 <= n)%nat -> (b1 <= m1 <= e1)%nat -> (b2 <= m2 <= e2)%nat ->
  (* above (m1, m2) in column m1, and right of it in row m2, the search walks towards (m1, m2), or both searches fail *)
  (forall y, (m2 < y <= e2)%nat -> bal m1 y < 0 \/ feas m1 y = true \/ (m1 = b1 /\ ub < bal m1 y)) ->
  (forall x, (m1 < x <= e1)%nat -> 0 <= bal x m2 \/ feas x m2 = true \/ (m2 = b2 /\ bal x m2 < lb)) ->
  seqs b1 e1 b2 e2 = match seqs m1 e1 m2 e2 with Some r => Some r | None => seqs b1 m1 b2 m2 end.
Proof using M1 M2 LB UB.
  induction n as [|n IH]; intros b1 e1 b2 e2 m1 m2 Hn L1 L2 C R; rewrite (seqs_eq m1) by lia; rewrite (seqs_eq b1 e1) by lia; destruct (feas e1 e2) eqn:F; try reflexivity.
  - replace m1 with e1 by lia. replace m2 with e2 by lia. rewrite !Nat.eqb_refl. rewrite (seqs_eq b1 e1 b2 e2), F by lia. destruct (_ <? 0); reflexivity.
  - assert (F' := F). apply feas_false in F'. destruct (Z.ltb_spec (bal e1 e2) 0) as [Ln|Ln].
    + destruct (Nat.eqb_spec e2 m2) as [E|Ne].
      * (* row m2: must be at the corner or fail *)
        subst m2. destruct (Nat.eq_dec e1 m1) as [E1|N1].
        { subst m1. rewrite (seqs_eq b1 e1 b2 e2), F by lia. destruct (Z.ltb_spec (bal e1 e2) 0); [reflexivity|lia]. }
        destruct (R e1 ltac:(lia)) as [X|[X|[X1 X2]]]; [lia|congruence|]. subst b2.
        rewrite Nat.eqb_refl. rewrite (seqs_eq b1 m1 e2 e2) by lia.
        pose proof (M1 m1 e1 ltac:(lia)). destruct (feas m1 e2) eqn:G; [apply feas_spec in G; unfold bal in *; lia|].
        destruct (Z.ltb_spec (bal m1 e2) 0); [rewrite Nat.eqb_refl; reflexivity|]. unfold bal in *. lia.
      * destruct (Nat.eqb_spec e2 b2); [lia|]. apply IH; try lia; [|exact R]. intros y Hy. apply C. lia.
    + destruct (Nat.eqb_spec e1 m1) as [E|Ne].
      * subst m1. destruct (Nat.eq_dec e2 m2) as [E2|N2].
        { subst m2. rewrite (seqs_eq b1 e1 b2 e2), F by lia. destruct (Z.ltb_spec (bal e1 e2) 0); [lia|reflexivity]. }
        destruct (C e2 ltac:(lia)) as [X|[X|[X1 X2]]]; [lia|congruence|]. subst b1.
        rewrite Nat.eqb_refl. rewrite (seqs_eq e1 e1 b2 m2) by lia.
        pose proof (M2 m2 e2 ltac:(lia)). destruct (feas e1 m2) eqn:G; [apply feas_spec in G; unfold bal in *; lia|].
        destruct (Z.ltb_spec (bal e1 m2) 0); [unfold bal in *; lia|]. rewrite Nat.eqb_refl. reflexivity.
      * destruct (Nat.eqb_spec e1 b1); [lia|]. apply IH; try lia; [exact C|]. intros x Hx. apply R. lia.
Qed.
Lemma lbnd_spec c n : forall j x, (j <= lbnd c n j x <= j + n)%nat /\ (forall i, (j <= i < lbnd c n j x)%nat -> c (S i) < x) /\ ((lbnd c n j x < j + n)%nat -> x <= c (S (lbnd c n j x))).
Proof using.
  clear. induction n as [|n IH]; intros j x; cbn [lbnd]; [repeat split; try lia; intros; lia|].
  destruct (Z.leb_spec x (c (S j))); [repeat split; try lia; intros; lia|]. destruct (IH (S j) x) as (A & B & C). split; [lia|]. split.
  - intros i Hi. destruct (Nat.eq_dec i j) as [->|]; [lia|]. apply B. lia.
  - intros L. apply C. lia.
Qed.
Lemma lower_bound_spec c lo hi x : (lo <= hi)%nat -> let r := lower_bound c lo hi x in
  (lo <= r <= hi)%nat /\ (forall i, (lo <= i < r)%nat -> c (S i) < x) /\ ((r < hi)%nat -> x <= c (S r)).
Proof using.
  clear. intros L r. unfold r, lower_bound. destruct (lbnd_spec c (hi - lo) lo x) as (A & B & C). split; [lia|]. split; [exact B|]. intros E. apply C. lia.
Qed.
(** The recursive search returns what the sequential search returns (the assertion of cpp:362-363), for every cutoff of at least 2. *)
Theorem recf_seqs : (2 <= cutoff)%nat -> forall fuel b1 e1 b2 e2, (b1 <= e1)%nat -> (b2 <= e2)%nat -> ((e1 - b1) + (e2 - b2) < fuel)%nat ->
  recf fuel b1 e1 b2 e2 = seqs b1 e1 b2 e2.
Proof using M1 M2 LB UB.
  intros CO. induction fuel as [|fuel IH]; intros b1 e1 b2 e2 L1 L2 Hf; [lia|]. cbn [recf].
  set (n1 := (e1 - b1)%nat). set (n2 := (e2 - b2)%nat).
  destruct (Nat.ltb n1 cutoff && Nat.ltb n2 cutoff) eqn:CU; [reflexivity|].
  assert (BIG : (cutoff <= n1 \/ cutoff <= n2)%nat).
  { apply andb_false_iff in CU. rewrite !Nat.ltb_ge in CU. exact CU. }
  destruct (Nat.ltb_spec n2 n1) as [Hn|Hn].
  - set (mid := (b1 + n1 / 2)%nat).
    assert (HM : (b1 < mid < e1)%nat).
    { unfold mid. pose proof (Nat.div_lt n1 2 ltac:(lia) ltac:(lia)). pose proof (Nat.div_le_lower_bound n1 2 1 ltac:(lia) ltac:(lia)). lia. }
    destruct (lower_bound_spec c2 b2 e2 (c1 (S mid)) L2) as (A & B & C). set (mt := lower_bound c2 b2 e2 (c1 (S mid))) in *.
    destruct (negb (Nat.eqb mt e2) && negb (Nat.eqb mid e1) && feas (S mid) (S mt)) eqn:G1.
    { rewrite !andb_true_iff, negb_true_iff, Nat.eqb_neq in G1. destruct G1 as [[G1 _] G2].
      rewrite IH by lia. symmetry. apply (seqs_shrink (e1 + e2)); lia || exact G2. }
    destruct (Nat.eqb mt e2 && (ub <? bal (S mid) e2)) eqn:G2.
    { rewrite andb_true_iff, Nat.eqb_eq, Z.ltb_lt in G2. destruct G2 as [G2 G3]. rewrite IH by lia. rewrite G2.
      symmetry. replace e1 with (mid + (e1 - mid))%nat at 1 by lia. apply seqs_drop1; [lia|lia|exact G3]. }
    rewrite !IH by lia. symmetry. apply (seqs_split (e1 + e2)); try lia.
    + intros y Hy. pose proof (C ltac:(lia)). pose proof (M2 (S mt) y ltac:(lia)). pose proof (M1 mid (S mid) ltac:(lia)).
      destruct (Z_lt_le_dec (bal mid y) 0); [left; assumption|]. right. left. apply feas_spec. unfold bal in *. lia.
    + intros x Hx. pose proof (M1 (S mid) x ltac:(lia)). destruct (Nat.eq_dec mt b2) as [E|N].
      * destruct (Z_lt_le_dec (bal x mt) 0); [|left; assumption]. destruct (feas x mt) eqn:F; [auto|]. right. right. split; [exact E|].
        apply feas_false in F. lia.
      * pose proof (B (mt - 1)%nat ltac:(lia)) as Q. replace (S (mt - 1)) with mt in Q by lia. left. unfold bal. lia.
  - set (mid := (b2 + n2 / 2)%nat).
    assert (HM : (b2 < mid < e2)%nat).
    { unfold mid. pose proof (Nat.div_lt n2 2 ltac:(lia) ltac:(lia)). pose proof (Nat.div_le_lower_bound n2 2 1 ltac:(lia) ltac:(lia)). lia. }
    destruct (lower_bound_spec c1 b1 e1 (c2 (S mid)) L1) as (A & B & C). set (mt := lower_bound c1 b1 e1 (c2 (S mid))) in *.
    destruct (negb (Nat.eqb mt e1) && negb (Nat.eqb mid e2) && feas (S mt) (S mid)) eqn:G1.
    { rewrite !andb_true_iff, negb_true_iff, Nat.eqb_neq in G1. destruct G1 as [[G1 _] G2].
      rewrite IH by lia. symmetry. apply (seqs_shrink (e1 + e2)); lia || exact G2. }
    destruct (Nat.eqb mt e1 && (bal e1 (S mid) <? lb)) eqn:G2.
    { rewrite andb_true_iff, Nat.eqb_eq, Z.ltb_lt in G2. destruct G2 as [G2 G3]. rewrite IH by lia. rewrite G2.
      symmetry. replace e2 with (mid + (e2 - mid))%nat at 1 by lia. apply seqs_drop2; [lia|lia|exact G3]. }
    rewrite !IH by lia. symmetry. apply (seqs_split (e1 + e2)); try lia.
    + intros y Hy. pose proof (M2 (S mid) y ltac:(lia)). destruct (Nat.eq_dec mt b1) as [E|N].
      * destruct (Z_lt_le_dec (bal mt y) 0); [left; assumption|]. destruct (feas mt y) eqn:F; [auto|]. right. right. split; [exact E|].
        apply feas_false in F. lia.
      * pose proof (B (mt - 1)%nat ltac:(lia)) as Q. replace (S (mt - 1)) with mt in Q by lia. left. unfold bal. lia.
    + intros x Hx. pose proof (C ltac:(lia)). pose proof (M1 (S mt) x ltac:(lia)). pose proof (M2 mid (S mid) ltac:(lia)).
      left. unfold bal. lia.
Qed.
End Prefixes.
