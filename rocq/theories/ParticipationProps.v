(** ParticipationProps.v - C77: theorems. *)
From Coq Require Import Sorted.
From Verif Require Import Base Participation ParticipationThms.

(** The pairs to be refined in a round: two different blocks, at least one of them active, joined by cut hyperedges whose weight exceeds the
    threshold (10 on coarser levels if small cuts are skipped, otherwise 0), and - if unpromising pairs are skipped - already
    improved before, except in the first round. *)
Definition active_pair (k : nat) (ssc sub inp : bool) (q : qstats) (act : nat -> bool) (rnd i j : nat) : Prop :=
  (i < j < k)%nat /\ (act i = true \/ act j = true) /\ (if ssc && negb inp then 10 else 0) < q_w q i j /\ (sub = true -> rnd <> O -> 0 < q_n q i j).
(** The statistics of the quotient graph only grow while a round is running. *)
Definition grows (q q' : qstats) : Prop := forall i j, q_w q i j <= q_w q' i j /\ q_n q i j <= q_n q' i j.

Section Thms.
Variables (k : nat) (ssc sub inp : bool).
Local Notation elig := (isEligible ssc sub inp).
Local Notation flat := blocks_of_pairs.
Local Notation apair := (active_pair k ssc sub inp).

Lemma elig_spec q act rnd i j : (i < j < k)%nat /\ elig q act rnd i j = true <-> apair q act rnd i j.
Proof.
  unfold isEligible, active_pair, threshold. rewrite !andb_true_iff, !orb_true_iff, !Z.ltb_lt, negb_true_iff, Nat.eqb_eq. rewrite (andb_comm (negb inp)).
  split.
  - intros (A & (B & C) & D). split; [exact A|]. split; [exact B|]. split; [exact C|]. intros Hs Hr. destruct D as [D|[D|D]]; [congruence|contradiction|exact D].
  - intros (A & B & C & D). split; [exact A|]. split; [split; [exact B|exact C]|]. destruct sub; [|left; reflexivity]. right. destruct (Nat.eq_dec rnd 0) as [E|E]; [left; exact E|right; apply D; auto].
Qed.
Lemma elig_grows q q' act rnd i j : grows q q' -> elig q act rnd i j = true -> elig q' act rnd i j = true.
Proof.
  intros G. destruct (G i j) as [G1 G2]. unfold isEligible. rewrite !andb_true_iff, !orb_true_iff, !Z.ltb_lt. intros ((A & B) & C). split; [split; [exact A|lia]|]. destruct C as [C|[C|C]]; [left; exact C|right; left; exact C|right; right; lia].
Qed.

Lemma report_fold imp ts : forall st, let st' := fold_left (fun s p => reportResults s p (imp p)) ts st in
  active st' = active st /\ round st' = round st /\ pairs st' = pairs st /\ parts st' = parts st /\ processed st' = processed st /\
  (forall b, active_next st' b = true <-> active_next st b = true \/ exists p, In p ts /\ 0 < imp p /\ (b = fst p \/ b = snd p)).
Proof.
  induction ts as [|p ts IH]; intros st; cbn [fold_left].
  - repeat split; try reflexivity; [tauto|]. intros [X|(p & [] & _)]. exact X.
  - destruct (IH (reportResults st p (imp p))) as (A1 & A2 & A3 & A4 & A5 & A6).
    assert (Rp : forall b, active_next (reportResults st p (imp p)) b = true <-> active_next st b = true \/ (0 < imp p /\ (b = fst p \/ b = snd p))).
    { intros b. unfold reportResults. destruct (Z.ltb_spec 0 (imp p)); cbn [active_next]; [|intuition lia]. unfold upd. destruct (Nat.eqb_spec b (snd p)) as [->|]; [tauto|]. destruct (Nat.eqb_spec b (fst p)) as [->|]; [tauto|]. intuition congruence. }
    assert (Q : active (reportResults st p (imp p)) = active st /\ round (reportResults st p (imp p)) = round st /\ pairs (reportResults st p (imp p)) = pairs st /\ parts (reportResults st p (imp p)) = parts st /\ processed (reportResults st p (imp p)) = processed st) by (unfold reportResults; destruct (0 <? imp p); repeat split).
    destruct Q as (Q1 & Q2 & Q3 & Q4 & Q5). repeat split; try congruence.
    + intros X. apply A6 in X. rewrite Rp in X. destruct X as [[X|X]|(p' & I & X)]; [left; exact X|right; exists p; split; [left; reflexivity|exact X]|right; exists p'; split; [right; exact I|exact X]].
    + intros X. apply A6. rewrite Rp. destruct X as [X|(p' & [<-|I] & X)]; [tauto|tauto|]. right. eauto.
Qed.

Lemma round_gen A q n : forall qs imp st ts st', RInv k A st -> (forall i j, In (i, j) A -> elig q (active st) (round st) i j = true) -> (forall m, grows q (qs m)) ->
  round_run k ssc sub inp n qs imp st = (ts, st') ->
  RInv k A st' /\ active st' = active st /\ round st' = round st /\ pairs st' = pairs st /\ length ts = n /\
  (forall t, In t ts -> NoDup (flat t)) /\ NoDup (concat ts) /\ (forall i j, In (i, j) (concat ts) -> In (i, j) A /\ processed st i j = false) /\
  (forall i j, processed st' i j = true <-> processed st i j = true \/ In (i, j) (concat ts)) /\
  (In [] ts -> forall i j, In (i, j) A -> processed st' i j = true) /\
  (~ In [] ts -> (n <= length (concat ts))%nat) /\
  (forall b, active_next st' b = true <-> active_next st b = true \/ exists p, In p (concat ts) /\ 0 < imp p /\ (b = fst p \/ b = snd p)).
Proof.
  induction n as [|n IH]; intros qs imp st ts st' R EL G E; cbn [round_run] in E.
  - injection E as <- <-. split; [exact R|]. do 4 (split; [reflexivity|]). cbn [concat length In]. split; [intros t []|]. split; [apply NoDup_nil|]. split; [intros i j []|]. split; [intros i j; tauto|]. split; [intros []|]. split; [intros _; lia|]. intros b. split; [tauto|]. intros [X|(p & [] & _)]. exact X.
  - destruct (getNextMatching k ssc sub inp (qs O) st) as [t0 st1] eqn:E0.
    destruct (getNextMatching_ok k ssc sub inp (qs O) st A t0 st1 R ltac:(intros i j I; apply (elig_grows q _ _ _ _ _ (G O)); auto) E0) as (R1 & (S1 & S2 & S3) & S4 & ND0 & In0 & Pr0 & _ & Em0).
    destruct (report_fold imp t0 st1) as (F1 & F2 & F3 & F4 & F5 & F6). set (st2 := fold_left (fun s p => reportResults s p (imp p)) t0 st1) in *.
    destruct (round_run k ssc sub inp n (fun m => qs (S m)) imp st2) as [r st3] eqn:E3. injection E as <- <-.
    assert (R2 : RInv k A st2) by (destruct R1; constructor; rewrite ?F3, ?F4, ?F5; assumption).
    destruct (IH (fun m => qs (S m)) imp st2 r st3 R2 ltac:(intros i j I; rewrite F1, F2, S1, S2; auto) ltac:(intros m; apply G) E3) as (R3 & B1 & B2 & B3 & B4 & B5 & B6 & B7 & B8 & B9 & B10 & B11).
    rewrite F5 in B7, B8. split; [exact R3|]. split; [congruence|]. split; [congruence|]. split; [congruence|]. split; [cbn; congruence|].
    assert (ND0' : NoDup t0).
    { clear - ND0. induction t0 as [|[i j] t0 IH]; [constructor|]. cbn [flat blocks_of_pairs flat_map app fst snd] in ND0. fold (flat t0) in ND0. inversion ND0 as [|? ? N1 N2]; subst. inversion N2 as [|? ? N3 N4]; subst. constructor; [|auto].
      intros X. apply N3. apply (in_flat t0 i j X). }
    split; [intros t [<-|It]; [exact ND0|auto]|]. cbn [concat].
    split.
    { assert (D : forall p, In p t0 -> ~ In p (concat r)). { intros [i j] Ip Ic. destruct (B7 i j Ic) as [_ X]. rewrite (proj2 (Pr0 i j) (or_intror Ip)) in X. discriminate X. }
      revert ND0' D. clear - B6. induction t0 as [|a u IHu]; intros N1 D; cbn [app]; [exact B6|]. inversion N1; subst. constructor.
      - intros X. apply in_app_or in X. destruct X as [X|X]; [contradiction|]. exact (D a (or_introl eq_refl) X).
      - apply IHu; [assumption|]. intros p Hp. apply D. right. exact Hp. }
    split; [intros i j I; apply in_app_or in I; destruct I as [I|I]; [exact (In0 i j I)|]; destruct (B7 i j I) as [X Y]; split; [exact X|]; destruct (processed st i j) eqn:Z; [|reflexivity]; rewrite (proj2 (Pr0 i j) (or_introl Z)) in Y; discriminate Y|].
    split; [intros i j; rewrite B8, Pr0, in_app_iff; tauto|].
    split; [intros [X|X] i j I; [|exact (B9 X i j I)]; apply B8; left; apply Pr0; left; apply (proj1 Em0); auto|].
    split; [intros N; rewrite app_length; assert (t0 <> []) by (intros ->; apply N; left; reflexivity); specialize (B10 ltac:(intros X; apply N; right; exact X)); destruct t0; [congruence|cbn [length]; lia]|].
    intros b. rewrite B11, F6, S4. split.
    + intros [[X|(p & I & X)]|(p & I & X)]; [left; exact X| |]; right; exists p; (split; [apply in_or_app; tauto|exact X]).
    + intros [X|(p & I & X)]; [tauto|]. apply in_app_or in I. destruct I as [I|I]; [left; right; eauto|right; eauto].
Qed.

(** C77: in a round (started by initialize or resetForNewRound in any state) every pair that is active at its beginning is returned by exactly
    one call of getNextMatching, nothing else is; each call returns pairs without a common block; an empty result means that
    nothing is left, and it comes after finitely many calls; counters do not underflow; the blocks that are active in the next
    round are those of the improved pairs. *)
Theorem C77_round st q qs imp n ts st' : (forall m, grows q (qs m)) -> round_run k ssc sub inp n qs imp (reset_impl k ssc sub inp q st) = (ts, st') ->
  NoDup (concat ts) /\
  (forall i j, In (i, j) (concat ts) -> apair q (active_next st) (round st) i j) /\
  (In [] ts -> forall i j, apair q (active_next st) (round st) i j -> In (i, j) (concat ts)) /\
  (k * k < n -> In [] ts)%nat /\
  (forall t, In t ts -> NoDup (flat t)) /\
  (forall b, (b < k)%nat -> 0 <= parts st' b) /\
  (forall b, active_next st' b = true <-> exists p, In p (concat ts) /\ 0 < imp p /\ (b = fst p \/ b = snd p)).
Proof.
  intros G E. destruct (reset_ok k ssc sub inp q st) as (R & A1 & A2 & A3 & A4). set (A := active_pairs k ssc sub inp q (active_next st) (round st)) in *.
  assert (Sp : forall i j, In (i, j) A <-> apair q (active_next st) (round st) i j) by (intros i j; unfold A; rewrite active_pairs_in; apply elig_spec).
  destruct (round_gen A q n qs imp _ ts st' R ltac:(intros i j I; rewrite A1, A2; apply Sp in I; apply elig_spec in I; apply I) G E) as (R' & _ & _ & _ & Ln & B5 & B6 & B7 & B8 & B9 & B10 & B11).
  split; [exact B6|]. split; [intros i j I; apply Sp; apply (B7 i j I)|].
  split; [intros X i j I; apply Sp in I; specialize (B9 X i j I); apply B8 in B9; destruct B9 as [Y|Y]; [rewrite A3 in Y; discriminate Y|exact Y]|].
  split.
  { intros Hn. assert (Dn : In [] ts \/ ~ In [] ts) by (clear; induction ts as [|[|p t] ts [IH|IH]]; [right; intros []|left; left; reflexivity|left; left; reflexivity|left; right; exact IH|right; intros [X|X]; [discriminate X|contradiction]]).
    destruct Dn as [Y|N]; [exact Y|exfalso].
    specialize (B10 N). assert (IC : incl (concat ts) A) by (intros [i j] I; apply (B7 i j I)). pose proof (NoDup_incl_length B6 IC) as L1.
    assert (L2 : (length A <= length (list_prod (seq 0 k) (seq 0 k)))%nat). { apply NoDup_incl_length; [exact (r_nodup _ _ _ R)|]. intros [i j] I. apply in_prod; apply in_seq; destruct (r_lt _ _ _ R i j I); lia. }
    rewrite prod_length, !seq_length in L2. lia. }
  split; [exact B5|]. split.
  - intros b Hb. rewrite (r_parts _ _ _ R' b Hb). apply sumZ_nonneg. intros p _. destruct (_ && _); cbn; lia.
  - intros b. rewrite B11, A4. intuition congruence.
Qed.

(** C77: each matching is maximal: a pair that is still to be done after the call shares a block with a pair of the matching. *)
Theorem C77_maximal st q qs imp n ts st1 t st2 i j : (forall m, grows q (qs m)) -> round_run k ssc sub inp n qs imp (reset_impl k ssc sub inp q st) = (ts, st1) ->
  getNextMatching k ssc sub inp (qs n) st1 = (t, st2) ->
  apair q (active_next st) (round st) i j -> ~ In (i, j) (concat ts) -> ~ In (i, j) t -> In i (flat t) \/ In j (flat t).
Proof.
  intros G E E2 Ap N1 N2. destruct (reset_ok k ssc sub inp q st) as (R & A1 & A2 & A3 & A4). set (A := active_pairs k ssc sub inp q (active_next st) (round st)) in *.
  assert (Sp : forall i j, In (i, j) A <-> apair q (active_next st) (round st) i j) by (intros a b; unfold A; rewrite active_pairs_in; apply elig_spec).
  assert (EL : forall i j, In (i, j) A -> elig q (active_next st) (round st) i j = true) by (intros a b I; apply Sp in I; apply elig_spec in I; apply I).
  destruct (round_gen A q n qs imp _ ts st1 R ltac:(intros a b I; rewrite A1, A2; auto) G E) as (R' & C1 & C2 & _ & _ & _ & _ & _ & B8 & _).
  destruct (getNextMatching_ok k ssc sub inp (qs n) st1 A t st2 R' ltac:(intros a b I; rewrite C1, C2, A1, A2; apply (elig_grows q _ _ _ _ _ (G n)); auto) E2) as (_ & _ & _ & _ & _ & Pr & Mx & _).
  apply Mx; [apply Sp; exact Ap|]. destruct (processed st2 i j) eqn:X; [|reflexivity]. exfalso. apply Pr in X. destruct X as [X|X]; [|contradiction]. apply B8 in X. destruct X as [X|X]; [rewrite A3 in X; discriminate X|contradiction].
Qed.

(** C77: a round without improvement is the last one: the next round starts with an empty matching. *)
Theorem C77_stops st q qs imp n ts st' q' : (forall m, grows q (qs m)) -> round_run k ssc sub inp n qs imp (reset_impl k ssc sub inp q st) = (ts, st') ->
  (forall p, In p (concat ts) -> imp p <= 0) -> fst (getNextMatching k ssc sub inp q' (resetForNewRound k ssc sub inp q' st')) = [].
Proof.
  intros G E Ni. destruct (C77_round st q qs imp n ts st' G E) as (_ & _ & _ & _ & _ & _ & An).
  unfold resetForNewRound. set (s1 := mkS (active st') (active_next st') (processed st') (parts st') (pairs st') (S (round st'))).
  destruct (getNextMatching k ssc sub inp q' (reset_impl k ssc sub inp q' s1)) as [t s2] eqn:E2. cbn [fst].
  destruct (reset_ok k ssc sub inp q' s1) as (R & A1 & A2 & A3 & A4). set (A := active_pairs k ssc sub inp q' (active_next s1) (round s1)) in *.
  destruct (getNextMatching_ok k ssc sub inp q' _ A t s2 R ltac:(intros i j I; rewrite A1, A2; apply active_pairs_in in I; apply I) E2) as (_ & _ & _ & _ & _ & _ & _ & Em).
  apply Em. intros i j I. exfalso. apply active_pairs_in in I. apply elig_spec in I. destruct I as (_ & Ac & _). cbn [active_next s1] in Ac.
  destruct Ac as [Ac|Ac]; apply An in Ac; destruct Ac as (p & Ip & Pos & _); specialize (Ni p Ip); lia.
Qed.
End Thms.

(** C77: the two calls of std::sort have a unique result. *)
Theorem C77_sorting_deterministic : forall l l', NoDup l -> Permutation l' l ->
  (forall q i, StronglySorted (fun a b => before q i a b = true) l' -> l' = isort (before q i) l) /\
  (forall pa, StronglySorted (fun a b => more pa a b = true) l' -> l' = isort (more pa) l).
Proof. intros l l' ND P. split; intros; apply sort_unique; auto; [apply before_total|apply more_total]. Qed.

(** The concurrent calls of reportResults: only reported blocks become active ... *)
Theorem C77_report_sound w t ls st b : brun (binit w t) ls = Some st -> word st b = true -> w b = true \/ exists i, In b (t i).
Proof.
  assert (X : forall ls st0 st, (forall b, word st0 b = true -> w b = true \/ exists i, In b (t i)) -> (forall i r b, reg st0 i = Some r -> r b = true -> w b = true \/ exists i, In b (t i)) ->
    (forall i, incl (todo st0 i) (t i)) -> brun st0 ls = Some st -> forall b, word st b = true -> w b = true \/ exists i, In b (t i)).
  { clear. unfold brun. induction ls as [|l ls IH]; intros st0 st W Rg Td E; cbn [fold_opt] in E; [injection E as <-; exact W|].
    destruct (bstep st0 l) as [st1|] eqn:E1; [|discriminate E]. apply (IH st1 st); [| | |exact E]; clear IH E; destruct l as [i|i]; cbn [bstep] in E1.
    1,3,5: destruct (reg st0 i) eqn:Er; [discriminate E1|]; destruct (todo st0 i) eqn:Et; [discriminate E1|]; injection E1 as <-; cbn [word reg todo]; auto.
    - intros j r b. unfold upd. destruct (Nat.eqb j i); [intros X; injection X as <-; auto|eauto].
    - destruct (reg st0 i) as [r|] eqn:Er; [|discriminate E1]. destruct (todo st0 i) as [|c l] eqn:Et; [discriminate E1|]. injection E1 as <-. cbn [word]. intros b. unfold upd.
      destruct (Nat.eqb_spec b c) as [->|]; [|eauto]. intros _. right. exists i. apply (Td i). rewrite Et. left. reflexivity.
    - destruct (reg st0 i) as [r|] eqn:Er; [|discriminate E1]. destruct (todo st0 i) as [|c l] eqn:Et; [discriminate E1|]. injection E1 as <-. cbn [reg]. intros j r' b. unfold upd. destruct (Nat.eqb j i); [discriminate|eauto].
    - destruct (reg st0 i) as [r|] eqn:Er; [|discriminate E1]. destruct (todo st0 i) as [|c l] eqn:Et; [discriminate E1|]. injection E1 as <-. cbn [todo]. intros j. unfold upd. destruct (Nat.eqb_spec j i) as [->|]; [|auto].
      intros b Hb. apply (Td i). rewrite Et. right. exact Hb. }
  intros E. apply (X ls (binit w t) st); [cbn; auto|cbn; discriminate|cbn; intros i x Hx; exact Hx|exact E].
Qed.

(** ... but one of them can be lost, and whether this happens depends on the schedule: block pairs (0,1) and (2,3) both report an
    improvement; in one execution all four blocks are active in the next round, in another one only the blocks 2 and 3, so that the next
    round does not refine the pair (0,1) any more.  The refiner is not deterministic. *)
Definition two_reports (i : nat) : list nat := match i with O => [0; 1]%nat | 1%nat => [2; 3]%nat | _ => [] end.
Definition ex_q : qstats := mkQ (fun i j => if (Nat.eqb i 0 && Nat.eqb j 1) || (Nat.eqb i 2 && Nat.eqb j 3) then 5 else 0) (fun _ _ => 1) (fun _ _ => 1).
Definition next_round (w : nat -> bool) : list (nat * nat) := fst (getNextMatching 4 false false true ex_q (resetForNewRound 4 false false true ex_q (mkS (fun _ => true) w (fun _ _ => false) (fun _ => 0) (fun _ => []) 0))).
Theorem C77_refuted_lost_activation : exists ls1 st1 ls2 st2,
  brun (binit (fun _ => false) two_reports) ls1 = Some st1 /\ bdone st1 /\ map (word st1) (seq 0 4) = [true; true; true; true] /\
  brun (binit (fun _ => false) two_reports) ls2 = Some st2 /\ bdone st2 /\ map (word st2) (seq 0 4) = [false; false; true; true] /\
  next_round (word st1) = [(0, 1); (2, 3)]%nat /\ next_round (word st2) = [(2, 3)]%nat.
Proof.
  eexists [BLoad 0; BStore 0; BLoad 0; BStore 0; BLoad 1; BStore 1; BLoad 1; BStore 1]%nat, _, [BLoad 1; BLoad 0; BStore 0; BLoad 0; BStore 0; BStore 1; BLoad 1; BStore 1]%nat, _.
  split; [reflexivity|]. split; [intros i; destruct i as [|[|i]]; split; reflexivity|]. split; [reflexivity|].
  split; [reflexivity|]. split; [intros i; destruct i as [|[|i]]; split; reflexivity|]. split; [reflexivity|].
  split; vm_compute; reflexivity.
Qed.

(** Example: four blocks, every pair has cut hyperedges; three matchings cover the six pairs. *)
Theorem C77_example : let q := mkQ (fun i j => Z.of_nat (i + 4 * j) + 1) (fun _ _ => 0) (fun _ _ => 0) in
  let st0 := mkS (fun _ => true) (fun _ => false) (fun _ _ => false) (fun _ => 0) (fun _ => []) 7 in
  grows q q /\ fst (round_run 4 true true true 4 (fun _ => q) (fun p => Z.of_nat (fst p)) (initialize 4 true true true q st0)) = [[(0, 3); (1, 2)]; [(0, 2); (1, 3)]; [(0, 1); (2, 3)]; []]%nat.
Proof. cbv zeta. split; [intros i j; lia|vm_compute; reflexivity]. Qed.
