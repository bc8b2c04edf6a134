(** Scan.v - selection of the best prefix of a move sequence:
    BalanceAndBestIndexScan (mt-kahypar/partition/refinement/fm/global_rollback.cpp:40-155) under tbb::parallel_scan, and
    the selection part of revertToBestPrefixParallel (:157-180). *)
From Verif Require Import Base Spec SpecLemmas WfCheck PHG PHGProofs Objective GainCache GainCacheProofs Conc ConcProofs ConcRun Rollback RollbackProofs.

(** struct Prefix, :45-58 (heaviest_weight defaults to numeric_limits<HypernodeWeight>::max()). *)
Record pfx := mkPfx { p_gain : Z; p_index : nat; p_heavy : Z }.
Definition MAXW : Z := 2 ^ 31 - 1.
Definition pfx_default : pfx := mkPfx 0 0 MAXW.
(** operator<, :54-57 *)
Definition pfx_lt (a b : pfx) : bool :=
  (p_gain b <? p_gain a) ||
  ((p_gain a =? p_gain b) && ((p_heavy a <? p_heavy b) || ((p_heavy a =? p_heavy b) && (p_index a <? p_index b)%nat))).
(** std::min(a, b) *)
Definition pfx_min (a b : pfx) : pfx := if pfx_lt b a then b else a.

Section Scan.
(** [order], [g]: moveOrder and its gain fields; [L]: max_part_weights; [k]: number of blocks. *)
Variables (H : hypergraph) (k : nat) (order : list (option rmove)) (g : nat -> Z) (L : nat -> Z).

(** Scan body: gain_sum and part_weights. *)
Record body := mkB { b_gain : Z; b_pw : nat -> Z }.
Definition body_zero : body := mkB 0 (fun _ => 0).                       (* splitting constructor, :65-72 *)
Definition entry (i : nat) : option rmove := nth i order None.
Definition max_element (pw : nat -> Z) : Z := fold_left (fun a i => Z.max a (pw i)) (seq 1 (k - 1)) (pw 0%nat).

(** operator()(range, pre_scan_tag), :87-96 *)
Definition pre1 (b : body) (i : nat) : body :=
  match entry i with
  | Some m => let pw1 := upd (b_pw b) (r_from m) (b_pw b (r_from m) - nw H (r_node m)) in
              mkB (b_gain b + g i) (upd pw1 (r_to m) (pw1 (r_to m) + nw H (r_node m)))
  | None => b
  end.
Definition pre_scan (b : body) (lo hi : nat) : body := fold_left pre1 (seq lo (hi - lo)) b.
(** reverse_join, :100-105 *)
Definition rjoin (b lhs : body) : body := mkB (b_gain b + b_gain lhs) (fun i => b_pw b i + b_pw lhs i).
(** operator()(range, final_scan_tag), :107-146 *)
Definition overloaded0 (pw : nat -> Z) : Z := sumZ (fun i => if L i <? pw i then 1 else 0) (seq 0 k).
Definition final1 (st : body * Z * pfx) (i : nat) : body * Z * pfx :=
  let '(b, over, cur) := st in
  match entry i with
  | Some m =>
    let gs := b_gain b + g i in
    let from_overloaded := L (r_from m) <? b_pw b (r_from m) in
    let pw1 := upd (b_pw b) (r_from m) (b_pw b (r_from m) - nw H (r_node m)) in
    let over1 := if from_overloaded && (pw1 (r_from m) <=? L (r_from m)) then over - 1 else over in
    let to_overloaded := L (r_to m) <? pw1 (r_to m) in
    let pw2 := upd pw1 (r_to m) (pw1 (r_to m) + nw H (r_node m)) in
    let over2 := if negb to_overloaded && (L (r_to m) <? pw2 (r_to m)) then over1 + 1 else over1 in
    let cur' := if (over2 =? 0) && (p_gain cur <=? gs) then pfx_min cur (mkPfx gs (i + 1) (max_element pw2)) else cur in
    (mkB gs pw2, over2, cur')
  | None => st
  end.
Definition final_scan (b : body) (lo hi : nat) : body * pfx :=
  let '(b', _, cur) := fold_left final1 (seq lo (hi - lo)) (b, overloaded0 (b_pw b), pfx_default) in (b', cur).
(** :141-145: update of the thread-local best. *)
Definition update_local (lb : nat -> pfx) (thread : nat) (cur : pfx) : nat -> pfx :=
  if (p_index cur =? 0)%nat then lb else upd lb thread (pfx_min (lb thread) cur).

(** What tbb::parallel_scan may do: a body obtained by splitting pre-scans consecutive ranges and may be joined
    with a body that covers the ranges to its left; a body that covers everything left of position [hi]
    (starting from the initial body) may be used for the final scan of a range starting at [hi]. *)
Inductive summ : nat -> nat -> body -> Prop :=
| summ_split lo : summ lo lo body_zero
| summ_pre lo mid hi b : summ lo mid b -> (mid <= hi)%nat -> summ lo hi (pre_scan b mid hi)
| summ_join lo mid hi l b : summ lo mid l -> summ mid hi b -> summ lo hi (rjoin b l).
Inductive full (init : nat -> Z) : nat -> body -> Prop :=
| full_init : full init 0 (mkB 0 init)
| full_final mid hi b : full init mid b -> (mid <= hi)%nat -> full init hi (fst (final_scan b mid hi))
| full_pre mid hi b : full init mid b -> (mid <= hi)%nat -> full init hi (pre_scan b mid hi)
| full_join mid hi l b : full init mid l -> summ mid hi b -> full init hi (rjoin b l).

(** One final scan: executing thread, range, body. *)
Record fscan := mkFS { fs_thread : nat; fs_lo : nat; fs_hi : nat; fs_body : body }.
Definition run_final (lb : nat -> pfx) (f : fscan) : nat -> pfx :=
  update_local lb (fs_thread f) (snd (final_scan (fs_body f) (fs_lo f) (fs_hi f))).
(** The final scans [fs] (in execution order) cover each index below [n] exactly once. *)
Definition scan_ok (init : nat -> Z) (n : nat) (fs : list fscan) : Prop :=
  Forall (fun f => full init (fs_lo f) (fs_body f) /\ (fs_lo f <= fs_hi f)%nat) fs /\
  Permutation (flat_map (fun f => seq (fs_lo f) (fs_hi f - fs_lo f)) fs) (seq 0 n).
(** finalize, :152-158; [threads]: the threads that own a local entry, in iteration order. *)
Definition finalize (init : nat -> Z) (lb : nat -> pfx) (threads : list nat) : pfx :=
  fold_left (fun res x => pfx_min res (lb x)) threads (mkPfx 0 0 (max_element init)).
Definition scan_result (init : nat -> Z) (fs : list fscan) (threads : list nat) : pfx :=
  finalize init (fold_left run_final fs (fun _ => pfx_default)) threads.
End Scan.

(** ---- order ---- *)
Lemma pfx_lt_spec a b : pfx_lt a b = true <->
  p_gain b < p_gain a \/ (p_gain a = p_gain b /\ (p_heavy a < p_heavy b \/ (p_heavy a = p_heavy b /\ (p_index a < p_index b)%nat))).
Proof. unfold pfx_lt. rewrite orb_true_iff, andb_true_iff, orb_true_iff, andb_true_iff, !Z.ltb_lt, !Z.eqb_eq, Nat.ltb_lt. tauto. Qed.
Definition pfx_le (a b : pfx) : Prop := pfx_lt b a = false.
Lemma pfx_le_spec a b : pfx_le a b <->
  p_gain b < p_gain a \/ (p_gain a = p_gain b /\ (p_heavy a < p_heavy b \/ (p_heavy a = p_heavy b /\ (p_index a <= p_index b)%nat))).
Proof. unfold pfx_le. rewrite <- not_true_iff_false, pfx_lt_spec. lia. Qed.
Lemma pfx_le_refl a : pfx_le a a. Proof. apply pfx_le_spec. lia. Qed.
Lemma pfx_le_trans a b c : pfx_le a b -> pfx_le b c -> pfx_le a c.
Proof. rewrite !pfx_le_spec. lia. Qed.
Lemma pfx_le_antisym a b : pfx_le a b -> pfx_le b a -> a = b.
Proof. rewrite !pfx_le_spec. destruct a, b; simpl. intros. f_equal; lia. Qed.
Lemma pfx_min_le a b : pfx_le (pfx_min a b) a /\ pfx_le (pfx_min a b) b.
Proof. unfold pfx_min. destruct (pfx_lt b a) eqn:E; [|split; [apply pfx_le_refl|exact E]]. split; [|apply pfx_le_refl]. apply pfx_lt_spec in E. apply pfx_le_spec. lia. Qed.
Lemma pfx_min_or a b : pfx_min a b = a \/ pfx_min a b = b.
Proof. unfold pfx_min. destruct (pfx_lt b a); auto. Qed.

Section Order.
Variables (P0 : partition) (t : tracker) (g : nat -> Z).
Notation order := (t_order t).
Definition gsum (i : nat) : Z := sumZ (fun j => match nth j order None with Some _ => g j | None => 0 end) (seq 0 i).
Lemma entry_nth i m : entry order i = Some m -> nth_error order i = Some (Some m).
Proof. unfold entry. intros E. destruct (nth_error order i) as [o|] eqn:En; [rewrite (nth_error_nth _ _ None En) in E; congruence|].
  apply nth_error_None in En. rewrite nth_overflow in E by exact En. discriminate. Qed.
Lemma entry_none i : entry order i = None -> prefix P0 t (S i) = prefix P0 t i.
Proof.
  unfold entry. intros E. destruct (nth_error order i) as [o|] eqn:En.
  - rewrite (nth_error_nth _ _ None En) in E. subst o. apply (prefix_S P0 t i None En).
  - apply nth_error_None in En. unfold prefix. rewrite (firstn_all2 (n := S i)) by (apply le_S, En). rewrite firstn_all2 by exact En. reflexivity.
Qed.

Lemma gsum_S i : gsum (S i) = gsum i + match entry order i with Some _ => g i | None => 0 end.
Proof. unfold gsum. rewrite (seq_S i 0), sumZ_app. simpl. unfold entry. lia. Qed.
End Order.

Lemma overloaded0_upd k L pw b x : (b < k)%nat -> overloaded0 k L (upd pw b x) =
  overloaded0 k L pw - (if L b <? pw b then 1 else 0) + (if L b <? x then 1 else 0).
Proof.
  intros Hb. unfold overloaded0. rewrite (sumZ_change1 _ (fun i => if L i <? pw i then 1 else 0) _ b (seq_NoDup _ _)).
  - assert (X : existsb (Nat.eqb b) (seq 0 k) = true) by (apply mem_In, in_seq; lia). rewrite X, upd_same. lia.
  - intros p _ Hp. rewrite upd_other by exact Hp. reflexivity.
Qed.
Lemma over_balanced H k L P pw : (forall p, (p < k)%nat -> pw p = block_weight H P p) -> (overloaded0 k L pw =? 0) = true <-> balanced H P k L.
Proof.
  intros E. unfold overloaded0. rewrite Z.eqb_eq. split.
  - intros Z0 b Hb. pose proof (sumZ_eq0 (fun i => if L i <? pw i then 1 else 0) (seq 0 k)) as X.
    assert (Y : (if L b <? pw b then 1 else 0) = 0).
    { apply (X (fun v _ => ltac:(cbv beta; destruct (_ <? _); lia)) Z0 b). apply in_seq. lia. }
    rewrite E in Y by exact Hb. destruct (Z.ltb_spec (L b) (block_weight H P b)); lia.
  - intros B. apply sumZ_zero. intros p Hp. apply in_seq in Hp. rewrite E by lia. specialize (B p ltac:(lia)).
    replace (_ <? _) with false by lia. reflexivity.
Qed.

Section Proofs.
Variables (H : hypergraph) (k : nat) (P0 : partition) (t : tracker) (g : nat -> Z) (L : nat -> Z).
Hypothesis (WF : wf_hg H) (RO : round_ok H k P0 t) (HC : complete H P0 k) (Hk : (0 < k)%nat)
  (NWP : forall v, In v (nodes H) -> 0 <= nw H v).
Notation order := (t_order t).
Definition W (i b : nat) : Z := block_weight H (prefix P0 t i) b.

Lemma W_step i m b : entry order i = Some m ->
  W (S i) b = W i b + (if Nat.eqb b (r_to m) then nw H (r_node m) else 0) - (if Nat.eqb b (r_from m) then nw H (r_node m) else 0).
Proof.
  intros E. apply entry_nth in E. unfold W. rewrite (prefix_S P0 t i (Some m) E).
  destruct (ro_valid H k P0 t RO i m E) as (Hn & _ & Hft & _ & _).
  assert (i < numMoves t)%nat by (unfold numMoves; apply nth_error_Some; congruence).
  assert (X : prefix P0 t i (r_node m) = Some (r_from m)) by (rewrite (prefix_at H k P0 t i RO) by lia; apply (prefix_all_valid H k P0 t i m RO E)).
  rewrite block_weight_move by (try apply WF; assumption). unfold in_block. rewrite X, (Nat.eqb_sym (r_to m) b), (Nat.eqb_sym (r_from m) b).
  destruct (Nat.eqb b (r_to m)), (Nat.eqb b (r_from m)); cbn [Z.b2z]; lia.
Qed.

(** A body is [offset] ahead of a state: it summarises the entries [lo, hi). *)
Definition delta_ok (lo hi : nat) (b : body) : Prop := b_gain b = gsum t g hi - gsum t g lo /\ forall p, b_pw b p = W hi p - W lo p.
Definition full_ok (hi : nat) (b : body) : Prop := b_gain b = gsum t g hi /\ forall p, (p < k)%nat -> b_pw b p = W hi p.


Lemma pre1_step b i (c : Z) (d : nat -> Z) : b_gain b = gsum t g i + c -> (forall p, b_pw b p = W i p + d p) ->
  b_gain (pre1 H order g b i) = gsum t g (S i) + c /\ forall p, b_pw (pre1 H order g b i) p = W (S i) p + d p.
Proof.
  intros E1 E2. unfold pre1. rewrite gsum_S. destruct (entry order i) as [m|] eqn:E.
  - cbn [b_gain b_pw]. split; [lia|]. intros p. rewrite (W_step i m p E). pose proof (ro_valid H k P0 t RO i m (entry_nth t i m E)) as (_ & _ & Hft & _).
    unfold upd. rewrite !E2. pose proof (E2 p).
    destruct (Nat.eqb_spec p (r_to m)) as [->|]; [destruct (Nat.eqb_spec (r_to m) (r_from m)); [congruence|]|];
      try (destruct (Nat.eqb_spec p (r_from m)) as [->|]); lia.
  - unfold W in *. rewrite (entry_none P0 t i E). split; [lia|exact E2].
Qed.

Lemma pre_scan_step b lo hi c d : (lo <= hi)%nat -> b_gain b = gsum t g lo + c -> (forall p, b_pw b p = W lo p + d p) ->
  b_gain (pre_scan H order g b lo hi) = gsum t g hi + c /\ forall p, b_pw (pre_scan H order g b lo hi) p = W hi p + d p.
Proof.
  intros Hle. unfold pre_scan. remember (hi - lo)%nat as n eqn:En. revert b lo Hle En.
  induction n as [|n IH]; intros b lo Hle En E1 E2.
  - replace hi with lo by lia. simpl. auto.
  - cbn [seq fold_left]. destruct (pre1_step b lo c d E1 E2) as [X1 X2]. apply IH; try assumption; lia.
Qed.

Lemma summ_ok lo hi b : summ H order g lo hi b -> (lo <= hi)%nat /\ delta_ok lo hi b.
Proof.
  induction 1 as [lo|lo mid hi b S [I0 [I1 I2]] Hm|lo mid hi l b S1 [I0 [I1 I2]] S2 [J0 [J1 J2]]].
  - split; [lia|]. split; [simpl; lia|intros p; simpl; lia].
  - split; [lia|]. destruct (pre_scan_step b mid hi (- gsum t g lo) (fun p => - W lo p)) as [X1 X2]; [lia|rewrite I1; lia|intros p; rewrite I2; lia|].
    split; [lia|]. intros p. rewrite X2. lia.
  - split; [lia|]. split; [simpl; lia|]. intros p. simpl. rewrite I2, J2. lia.
Qed.

(** Candidate prefixes of the entries [lo, hi). *)
Definition cand (i : nat) : pfx := mkPfx (gsum t g (S i)) (i + 1) (max_element k (W (S i))).
Definition is_cand (lo hi : nat) (c : pfx) : Prop :=
  exists i, (lo <= i < hi)%nat /\ entry order i <> None /\ balanced H (prefix P0 t (S i)) k L /\ c = cand i.



Lemma max_element_ext pw pw' : (forall p, (p < k)%nat -> pw p = pw' p) -> max_element k pw = max_element k pw'.
Proof.
  intros E. unfold max_element. rewrite E by exact Hk.
  assert (G : forall l a, (forall p, In p l -> (p < k)%nat) -> fold_left (fun a i => Z.max a (pw i)) l a = fold_left (fun a i => Z.max a (pw' i)) l a).
  { induction l as [|x l IH]; intros a Hl; [reflexivity|]. simpl. rewrite E by (apply Hl; left; reflexivity). apply IH. intros p Hp. apply Hl. right. exact Hp. }
  apply G. intros p Hp. apply in_seq in Hp. lia.
Qed.

Lemma node_lt m i : entry order i = Some m -> (r_from m < k)%nat /\ (r_to m < k)%nat /\ r_from m <> r_to m.
Proof.
  intros E. destruct (ro_valid H k P0 t RO i m (entry_nth t i m E)) as (Hn & Hp & Hft & Ht & _).
  destruct (HC (r_node m) Hn) as (b & Hb & Hb2). split; [congruence|]. auto.
Qed.

Definition least (S : pfx -> Prop) (c : pfx) : Prop := S c /\ forall c', S c' -> pfx_le c c'.

Lemma final1_step b over cur lo i : full_ok i b -> over = overloaded0 k L (b_pw b) ->
  (lo <= i)%nat -> least (fun c => c = pfx_default \/ is_cand lo i c) cur ->
  let '(b', over', cur') := final1 H k order g L (b, over, cur) i in
  full_ok (S i) b' /\ over' = overloaded0 k L (b_pw b') /\ least (fun c => c = pfx_default \/ is_cand lo (S i) c) cur'.
Proof.
  intros [F1 F2] Eo Hlo [C1 C2]. unfold final1. destruct (entry order i) as [m|] eqn:E.
  - destruct (node_lt m i E) as (Kf & Kt & Hft). cbv zeta.
    set (pw1 := upd (b_pw b) (r_from m) _). set (pw2 := upd pw1 (r_to m) _).
    set (over2 := if negb _ && _ then _ else _).
    assert (P2 : forall p, (p < k)%nat -> pw2 p = W (S i) p).
    { intros p Hp. rewrite (W_step i m p E). unfold pw2, pw1, upd. rewrite !F2 by assumption.
      destruct (Nat.eqb_spec p (r_to m)) as [->|]; [destruct (Nat.eqb_spec (r_to m) (r_from m)); [congruence|]|];
      try (destruct (Nat.eqb_spec p (r_from m)) as [->|]); rewrite ?F2 by assumption; lia. }
    assert (Wn : 0 <= nw H (r_node m)) by (apply NWP; apply (ro_valid H k P0 t RO i m (entry_nth t i m E))).
    assert (Q1 : pw1 (r_from m) = b_pw b (r_from m) - nw H (r_node m)) by (unfold pw1; apply upd_same).
    assert (Q2 : pw2 (r_to m) = pw1 (r_to m) + nw H (r_node m)) by (unfold pw2; apply upd_same).
    assert (O1 : overloaded0 k L pw2 = overloaded0 k L (b_pw b) - (if L (r_from m) <? b_pw b (r_from m) then 1 else 0)
       + (if L (r_from m) <? b_pw b (r_from m) - nw H (r_node m) then 1 else 0) - (if L (r_to m) <? pw1 (r_to m) then 1 else 0)
       + (if L (r_to m) <? pw1 (r_to m) + nw H (r_node m) then 1 else 0)).
    { unfold pw2. rewrite overloaded0_upd by exact Kt. unfold pw1 at 1. rewrite overloaded0_upd by exact Kf. reflexivity. }
    assert (O2 : over2 = overloaded0 k L pw2).
    { rewrite O1, <- Eo. unfold over2. rewrite Q1, Q2. clear - Wn.
      destruct (Z.ltb_spec (L (r_from m)) (b_pw b (r_from m))), (Z.leb_spec (b_pw b (r_from m) - nw H (r_node m)) (L (r_from m))),
        (Z.ltb_spec (L (r_from m)) (b_pw b (r_from m) - nw H (r_node m))); cbn [andb]; try lia;
      destruct (Z.ltb_spec (L (r_to m)) (pw1 (r_to m))), (Z.ltb_spec (L (r_to m)) (pw1 (r_to m) + nw H (r_node m))); cbn [negb andb]; lia. }
    assert (G2 : b_gain b + g i = gsum t g (S i)) by (rewrite gsum_S, E; lia).
    split; [split; [cbn [b_gain]; exact G2|exact P2]|]. split; [exact O2|].
    rewrite G2. rewrite O2. rewrite (max_element_ext pw2 (W (S i)) P2). fold (cand i).
    assert (CS : forall c, is_cand lo (S i) c <-> is_cand lo i c \/ (balanced H (prefix P0 t (S i)) k L /\ c = cand i)).
    { intros c. split.
      - intros (j & Hj & Ej & Bj & ->). destruct (Nat.eq_dec j i) as [->|]; [right; auto|left]. exists j. split; [lia|auto].
      - intros [(j & Hj & X)|[B ->]]; [exists j; split; [lia|exact X]|]. exists i. split; [lia|]. rewrite E. split; [discriminate|auto]. }
    pose proof (over_balanced H k L (prefix P0 t (S i)) pw2 P2) as OB.
    destruct (overloaded0 k L pw2 =? 0) eqn:EO; cbn [andb].
    + assert (B : balanced H (prefix P0 t (S i)) k L) by (apply OB; reflexivity). destruct (Z.leb_spec (p_gain cur) (gsum t g (S i))) as [Hg|Hg].
      * pose proof (pfx_min_le cur (cand i)) as [M1 M2]. split.
        -- destruct (pfx_min_or cur (cand i)) as [-> | ->]; [destruct C1 as [->|C1]; [left; reflexivity|right; apply CS; left; exact C1]|].
           right. apply CS. right. auto.
        -- intros c [->|Hc]; [eapply pfx_le_trans; [exact M1|apply C2; left; reflexivity]|]. apply CS in Hc.
           destruct Hc as [Hc|[_ ->]]; [eapply pfx_le_trans; [exact M1|apply C2; right; exact Hc]|exact M2].
      * split; [destruct C1 as [->|C1]; [left; reflexivity|right; apply CS; left; exact C1]|].
        intros c [->|Hc]; [apply C2; left; reflexivity|]. apply CS in Hc. destruct Hc as [Hc|[_ ->]]; [apply C2; right; exact Hc|].
        apply pfx_le_spec. left. exact Hg.
    + assert (NB : ~ balanced H (prefix P0 t (S i)) k L) by (intros B; apply OB in B; discriminate).
      split; [destruct C1 as [->|C1]; [left; reflexivity|right; apply CS; left; exact C1]|].
      intros c [->|Hc]; [apply C2; left; reflexivity|]. apply CS in Hc. destruct Hc as [Hc|[B _]]; [apply C2; right; exact Hc|contradiction].
  - split; [|split; [exact Eo|]].
    + split; [rewrite gsum_S, E; lia|]. unfold W. rewrite (entry_none P0 t i E). exact F2.
    + assert (CS : forall c, is_cand lo (S i) c <-> is_cand lo i c).
      { intros c. split; intros (j & Hj & Ej & X); exists j; (split; [|auto]); [|lia]. destruct (Nat.eq_dec j i) as [->|]; [congruence|lia]. }
      split; [destruct C1 as [->|C1]; [left; reflexivity|right; apply CS, C1]|]. intros c [->|Hc]; apply C2; [left; reflexivity|right; apply CS, Hc].
Qed.


Lemma final_scan_spec b lo hi : full_ok lo b -> (lo <= hi)%nat ->
  full_ok hi (fst (final_scan H k order g L b lo hi)) /\
  least (fun c => c = pfx_default \/ is_cand lo hi c) (snd (final_scan H k order g L b lo hi)).
Proof.
  intros F Hle.
  assert (G : forall n b over cur, (lo + n <= hi)%nat -> full_ok lo b -> over = overloaded0 k L (b_pw b) -> least (fun c => c = pfx_default \/ is_cand lo lo c) cur ->
    let '(b', over', cur') := fold_left (final1 H k order g L) (seq lo n) (b, over, cur) in
    full_ok (lo + n) b' /\ over' = overloaded0 k L (b_pw b') /\ least (fun c => c = pfx_default \/ is_cand lo (lo + n) c) cur').
  { intros n. induction n as [|n IH]; intros b0 over cur Hn F0 Eo Lc.
    - simpl. rewrite Nat.add_0_r. auto.
    - rewrite (seq_S n lo), fold_left_app. specialize (IH b0 over cur ltac:(lia) F0 Eo Lc).
      destruct (fold_left _ (seq lo n) _) as [[b1 o1] c1]. destruct IH as (I1 & I2 & I3). cbn [fold_left].
      pose proof (final1_step b1 o1 c1 lo (lo + n) I1 I2 ltac:(lia) I3) as X. rewrite Nat.add_succ_r. exact X. }
  specialize (G (hi - lo)%nat b (overloaded0 k L (b_pw b)) pfx_default ltac:(lia) F eq_refl).
  unfold final_scan. destruct (fold_left _ _ _) as [[b1 o1] c1]. destruct G as (G1 & _ & G2).
  - split; [left; reflexivity|]. intros c [->|(i & Hi & _)]; [apply pfx_le_refl|lia].
  - replace (lo + (hi - lo))%nat with hi in * by lia. split; assumption.
Qed.

Lemma full_full_ok init hi b : (forall p, (p < k)%nat -> init p = W 0 p) -> full H k order g L init hi b -> full_ok hi b.
Proof.
  intros Hi. induction 1 as [|mid hi b F IH Hm|mid hi b F IH Hm|mid hi l b F IH S].
  - split; [reflexivity|exact Hi].
  - apply (final_scan_spec b mid hi IH Hm).
  - destruct IH as [I1 I2]. destruct (pre_scan_step b mid hi 0 (fun p => b_pw b p - W mid p) Hm) as [X1 X2]; [lia|intros; lia|].
    split; [lia|]. intros p Hp. rewrite X2, I2 by exact Hp. lia.
  - destruct (summ_ok _ _ _ S) as (_ & J1 & J2). destruct IH as [I1 I2]. split; [simpl; lia|]. intros p Hp. simpl. rewrite J2, I2 by exact Hp. lia.
Qed.

(** Candidates handled by a list of final scans. *)
Definition handled (fs : list fscan) (c : pfx) : Prop := exists f, In f fs /\ is_cand (fs_lo f) (fs_hi f) c.
(** [lb]: the local bests are default or handled, and each handled candidate is dominated by default or one of them. *)
Definition locals_ok (fs : list fscan) (lb : nat -> pfx) : Prop :=
  (forall x, lb x = pfx_default \/ handled fs (lb x)) /\
  (forall c, handled fs c -> pfx_le pfx_default c \/ exists x, In x (map fs_thread fs) /\ pfx_le (lb x) c).

Lemma locals_step init fs lb f : (forall p, (p < k)%nat -> init p = W 0 p) ->
  full H k order g L init (fs_lo f) (fs_body f) -> (fs_lo f <= fs_hi f)%nat -> locals_ok fs lb -> locals_ok (fs ++ [f]) (run_final H k order g L lb f).
Proof.
  intros Hi F Hle [A B]. destruct (final_scan_spec (fs_body f) (fs_lo f) (fs_hi f) (full_full_ok init _ _ Hi F) Hle) as [_ [C1 C2]].
  unfold run_final. set (cur := snd (final_scan _ _ _ _ _ _ _ _)) in *.
  assert (M : forall c, handled fs c -> handled (fs ++ [f]) c) by (intros c (f0 & X & Y); exists f0; split; [apply in_or_app; left; exact X|exact Y]).
  assert (In_f : forall c, is_cand (fs_lo f) (fs_hi f) c -> handled (fs ++ [f]) c) by (intros c Hc; exists f; split; [apply in_or_app; right; left; reflexivity|exact Hc]).
  assert (LE : forall x, pfx_le (update_local lb (fs_thread f) cur x) (lb x)).
  { intros x. unfold update_local. destruct (p_index cur =? 0)%nat; [apply pfx_le_refl|]. unfold upd. destruct (Nat.eqb_spec x (fs_thread f)) as [->|]; [apply pfx_min_le|apply pfx_le_refl]. }
  split.
  - intros x. unfold update_local. destruct (p_index cur =? 0)%nat; [destruct (A x) as [|]; auto|]. unfold upd. destruct (Nat.eqb_spec x (fs_thread f)) as [->|]; [|destruct (A x); auto].
    destruct (pfx_min_or (lb (fs_thread f)) cur) as [-> | ->]; [destruct (A (fs_thread f)); auto|]. destruct C1 as [->|C1]; auto.
  - intros c (f0 & Hf0 & Hc). apply in_app_or in Hf0. destruct Hf0 as [Hf0|[<-|[]]].
    + destruct (B c) as [X|(x & Hx & X)]; [exists f0; auto|left; exact X|right]. exists x. split; [rewrite map_app; apply in_or_app; left; exact Hx|].
      eapply pfx_le_trans; [apply LE|exact X].
    + specialize (C2 c (or_intror Hc)). destruct (Nat.eqb_spec (p_index cur) 0) as [E0|E0].
      * left. destruct C1 as [C1|(i & _ & _ & _ & C1)]; [rewrite <- C1; exact C2|]. rewrite C1 in E0. simpl in E0. lia.
      * right. exists (fs_thread f). split; [rewrite map_app; apply in_or_app; right; left; reflexivity|].
        unfold update_local. destruct (Nat.eqb_spec (p_index cur) 0); [contradiction|]. rewrite upd_same. eapply pfx_le_trans; [apply pfx_min_le|exact C2].
Qed.

Lemma locals_run init fs : (forall p, (p < k)%nat -> init p = W 0 p) ->
  Forall (fun f => full H k order g L init (fs_lo f) (fs_body f) /\ (fs_lo f <= fs_hi f)%nat) fs ->
  locals_ok fs (fold_left (run_final H k order g L) fs (fun _ => pfx_default)).
Proof.
  intros Hi. induction fs as [|f fs IH] using rev_ind; intros F.
  - split; [intros x; left; reflexivity|]. intros c (f & [] & _).
  - apply Forall_app in F. destruct F as [F1 F2]. inversion F2 as [|? ? [X1 X2] _]; subst. rewrite fold_left_app. cbn [fold_left].
    apply (locals_step init); auto.
Qed.

Lemma max_element_MAXW init : (forall p, (p < k)%nat -> init p <= MAXW) -> max_element k init <= MAXW.
Proof.
  intros Hb. unfold max_element.
  assert (G : forall l a, a <= MAXW -> (forall p, In p l -> (p < k)%nat) -> fold_left (fun a i => Z.max a (init i)) l a <= MAXW).
  { induction l as [|x l IH]; intros a Ha Hl; [exact Ha|]. simpl. apply IH; [|intros p Hp; apply Hl; right; exact Hp]. specialize (Hb x (Hl x (or_introl eq_refl))). lia. }
  apply G; [apply Hb, Hk|]. intros p Hp. apply in_seq in Hp. lia.
Qed.

(** The selected prefix is the least element of the empty prefix and the balanced prefixes of the whole sequence. *)
Lemma scan_least init n fs threads : (forall p, (p < k)%nat -> init p = W 0 p) -> (forall p, (p < k)%nat -> init p <= MAXW) ->
  scan_ok H k order g L init n fs -> (forall f, In f fs -> In (fs_thread f) threads) ->
  least (fun c => c = mkPfx 0 0 (max_element k init) \/ is_cand 0 n c) (scan_result H k order g L init fs threads).
Proof.
  intros Hi Hm [S1 S2] Ht. pose proof (locals_run init fs Hi S1) as [A B].
  unfold scan_result, finalize. set (lb := fold_left (run_final H k order g L) fs _) in *. set (start := mkPfx 0 0 (max_element k init)).
  assert (SD : pfx_le start pfx_default).
  { apply pfx_le_spec. right. split; [reflexivity|]. pose proof (max_element_MAXW init Hm). unfold start. cbn [p_heavy p_index pfx_default]. lia. }
  assert (HC2 : forall c, handled fs c <-> is_cand 0 n c).
  { intros c. split.
    - intros (f & Hf & i & Hr & X). exists i. split; [|exact X]. split; [lia|].
      assert (Y : In i (seq 0 n)). { eapply Permutation_in; [exact S2|]. apply in_flat_map. exists f. split; [exact Hf|apply in_seq; lia]. }
      apply in_seq in Y. lia.
    - intros (i & Hr & X). assert (Y : In i (flat_map (fun f => seq (fs_lo f) (fs_hi f - fs_lo f)) fs)).
      { eapply Permutation_in; [apply Permutation_sym, S2|]. apply in_seq. lia. }
      apply in_flat_map in Y. destruct Y as (f & Hf & Y). apply in_seq in Y. exists f. split; [exact Hf|]. exists i. split; [lia|exact X]. }
  assert (G : forall l r, (r = start \/ handled fs r) -> pfx_le r start ->
     let z := fold_left (fun res x => pfx_min res (lb x)) l r in (z = start \/ handled fs z) /\ pfx_le z r /\ forall x, In x l -> pfx_le z (lb x)).
  { induction l as [|x l IH]; intros r Hr Hrs; [split; [exact Hr|split; [apply pfx_le_refl|intros x []]]|].
    cbn [fold_left]. cbv zeta. pose proof (pfx_min_le r (lb x)) as [M1 M2].
    destruct (IH (pfx_min r (lb x))) as (I1 & I2 & I3).
    - destruct (A x) as [Ed|Hh].
      + assert (pfx_min r (lb x) = r) as ->; [|exact Hr].
        unfold pfx_min. destruct (pfx_lt (lb x) r) eqn:El; [|reflexivity]. exfalso. apply pfx_lt_spec in El. rewrite Ed in El.
        assert (Z : pfx_le r pfx_default) by (eapply pfx_le_trans; eauto). apply pfx_le_spec in Z. lia.
      + destruct (pfx_min_or r (lb x)) as [-> | ->]; [exact Hr|right; exact Hh].
    - eapply pfx_le_trans; [exact M1|exact Hrs].
    - split; [exact I1|]. split; [eapply pfx_le_trans; [exact I2|exact M1]|]. intros y [<-|Hy]; [eapply pfx_le_trans; [exact I2|exact M2]|apply I3, Hy]. }
  destruct (G threads start (or_introl eq_refl) (pfx_le_refl _)) as (G1 & G2 & G3). split.
  - destruct G1 as [G1|G1]; [left; exact G1|right; apply HC2, G1].
  - intros c [->|Hc]; [exact G2|]. apply HC2 in Hc. destruct (B c Hc) as [X|(x & Hx & X)].
    + eapply pfx_le_trans; [exact G2|]. eapply pfx_le_trans; eauto.
    + eapply pfx_le_trans; [apply (G3 x)|exact X]. apply in_map_iff in Hx. destruct Hx as (f & <- & Hf). apply Ht, Hf.
Qed.
End Proofs.

(** ---- C27 ---- *)
(** Hypotheses shared by the C27 statements: a well-formed hypergraph with non-negative node weights, a round of moves
    started from the complete partition [P0], and the block weights [init] of [P0] (which fit into HypernodeWeight). *)
Record scan_input (H : hypergraph) (k : nat) (P0 : partition) (t : tracker) (init : nat -> Z) : Prop := {
  si_wf : wf_hg H; si_round : round_ok H k P0 t; si_complete : complete H P0 k; si_k : (0 < k)%nat;
  si_nonneg : forall v, In v (nodes H) -> 0 <= nw H v;
  si_init : forall p, (p < k)%nat -> init p = block_weight H P0 p;
  si_fits : forall p, (p < k)%nat -> init p <= MAXW
}.

Lemma gsum_telescope H k P0 t g obj : round_ok H k P0 t ->
  (forall i m, nth_error (t_order t) i = Some (Some m) -> g i = obj (prefix P0 t i) - obj (prefix P0 t (S i))) ->
  forall j, gsum t g j = obj P0 - obj (prefix P0 t j).
Proof.
  intros RO Hg. induction j as [|j IH].
  - unfold gsum, prefix. simpl. lia.
  - rewrite gsum_S, IH. destruct (entry (t_order t) j) as [m|] eqn:E.
    + rewrite (Hg j m (entry_nth t j m E)). lia.
    + rewrite (entry_none P0 t j E). lia.
Qed.

(** Every prefix is, as a partition, the empty prefix or a prefix that ends with a valid move. *)
Lemma prefix_normal P0 t g n j : (j <= n)%nat ->
  exists j', (j' = 0%nat \/ exists i, j' = S i /\ (i < n)%nat /\ entry (t_order t) i <> None) /\ prefix P0 t j = prefix P0 t j' /\ gsum t g j = gsum t g j'.
Proof.
  induction j as [|j IH]; intros Hj; [exists 0%nat; auto|].
  destruct (entry (t_order t) j) as [m|] eqn:E.
  - exists (S j). split; [right; exists j; split; [reflexivity|split; [lia|congruence]]|auto].
  - destruct (IH ltac:(lia)) as (j' & A & B & C). exists j'. split; [exact A|]. rewrite (entry_none P0 t j E), gsum_S, E. split; [exact B|lia].
Qed.

(** The kept prefix has the maximum objective decrease among the empty prefix and all balanced prefixes (so its
    objective is at most that of every balanced prefix), the reported gain is the true decrease, the objective never
    increases, and the kept prefix is balanced or empty (so a balanced partition stays balanced); for every way
    parallel_scan splits the sequence and every assignment of the pieces to threads. *)
Theorem C27_best_balanced_prefix : forall H k P0 t init g L (obj : partition -> Z) fs threads, scan_input H k P0 t init ->
  (forall i m, nth_error (t_order t) i = Some (Some m) -> g i = obj (prefix P0 t i) - obj (prefix P0 t (S i))) ->
  scan_ok H k (t_order t) g L init (numMoves t) fs -> (forall f, In f fs -> In (fs_thread f) threads) ->
  let r := scan_result H k (t_order t) g L init fs threads in
  (p_index r <= numMoves t)%nat /\
  p_gain r = obj P0 - obj (prefix P0 t (p_index r)) /\ 0 <= p_gain r /\
  (p_index r = 0%nat \/ balanced H (prefix P0 t (p_index r)) k L) /\
  (balanced H P0 k L -> balanced H (prefix P0 t (p_index r)) k L) /\
  (forall j, (j <= numMoves t)%nat -> balanced H (prefix P0 t j) k L -> obj (prefix P0 t (p_index r)) <= obj (prefix P0 t j)).
Proof.
  intros H k P0 t init g L obj fs threads [WF RO HC Hk NWP Hi Hm] Hg SO Ht r.
  assert (Hi' : forall p, (p < k)%nat -> init p = W H P0 t 0 p) by (intros p Hp; rewrite Hi by exact Hp; reflexivity).
  pose proof (gsum_telescope H k P0 t g obj RO Hg) as GT.
  destruct (scan_least H k P0 t g L WF RO HC Hk NWP init (numMoves t) fs threads Hi' Hm SO Ht) as [L1 L2]. fold r in L1, L2.
  assert (R0 : (p_index r <= numMoves t)%nat /\ p_gain r = gsum t g (p_index r) /\ (p_index r = 0%nat \/ balanced H (prefix P0 t (p_index r)) k L)).
  { destruct L1 as [->|(i & Hin & _ & B & ->)]; [repeat apply conj; [simpl; lia|reflexivity|left; reflexivity]|].
    unfold cand. cbn [p_index p_gain]. rewrite Nat.add_1_r. repeat apply conj; [lia|reflexivity|right; exact B]. }
  destruct R0 as (R1 & R2 & R3).
  assert (R4 : 0 <= p_gain r). { pose proof (L2 _ (or_introl eq_refl)) as X. apply pfx_le_spec in X. cbn [p_gain] in X. lia. }
  split; [exact R1|]. split; [rewrite R2; apply GT|]. split; [exact R4|]. split; [exact R3|]. split.
  - intros B. destruct R3 as [-> | R3]; [exact B|exact R3].
  - intros j Hj Bj. destruct (prefix_normal P0 t g (numMoves t) j Hj) as (j' & A & B & C). rewrite B in *.
    pose proof (GT (p_index r)) as G1. pose proof (GT j') as G2. destruct A as [-> | (i & -> & Hin & En)].
    + change (prefix P0 t 0) with P0 in *. lia.
    + assert (X : pfx_le r (cand H k P0 t g i)). { apply L2. right. exists i. split; [lia|]. split; [exact En|]. split; [exact Bj|reflexivity]. }
      apply pfx_le_spec in X. unfold cand in X. cbn [p_gain] in X. lia.
Qed.

(** Independence of the split: any two executions of the parallel scan on the same moves select the same prefix. *)
Theorem C27_split_independent : forall H k P0 t init g L fs threads fs' threads', scan_input H k P0 t init ->
  scan_ok H k (t_order t) g L init (numMoves t) fs -> (forall f, In f fs -> In (fs_thread f) threads) ->
  scan_ok H k (t_order t) g L init (numMoves t) fs' -> (forall f, In f fs' -> In (fs_thread f) threads') ->
  scan_result H k (t_order t) g L init fs threads = scan_result H k (t_order t) g L init fs' threads'.
Proof.
  intros H k P0 t init g L fs threads fs' threads' [WF RO HC Hk NWP Hi Hm] S1 T1 S2 T2.
  assert (Hi' : forall p, (p < k)%nat -> init p = W H P0 t 0 p) by (intros p Hp; rewrite Hi by exact Hp; reflexivity).
  destruct (scan_least H k P0 t g L WF RO HC Hk NWP init (numMoves t) fs threads Hi' Hm S1 T1) as [A1 A2].
  destruct (scan_least H k P0 t g L WF RO HC Hk NWP init (numMoves t) fs' threads' Hi' Hm S2 T2) as [B1 B2].
  apply pfx_le_antisym; [apply A2, B1|apply B2, A1].
Qed.
