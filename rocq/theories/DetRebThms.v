(** DetRebThms.v - the deterministic rebalancer: what a round does, schedule independence, termination (C67). *)
From Coq Require Import FunctionalExtensionality.
From Verif Require Import Base Spec SpecLemmas PHG PHGProofs Conc Objective GainCache Metrics PropsA Scan WfCheck DetLP DetLPApply DetLP1 DetLPThms DetLPTotal DetCoarseThms DetReb DetLPProps.

(** Generic insertion sort, for the existence of a sorted permutation. *)
Section Isort.
Context {A : Type} (le : A -> A -> bool).
Fixpoint ins (a : A) (l : list A) : list A := match l with [] => [a] | b :: r => if le a b then a :: l else b :: ins a r end.
Fixpoint isort (l : list A) : list A := match l with [] => [] | a :: r => ins a (isort r) end.
Lemma ins_perm a : forall l, Permutation (a :: l) (ins a l).
Proof. induction l as [|b l IH]; cbn; [apply Permutation_refl|]. destruct (le a b); [apply Permutation_refl|]. rewrite perm_swap. apply perm_skip. exact IH. Qed.
Lemma isort_perm : forall l, Permutation l (isort l).
Proof. induction l as [|a l IH]; cbn; [constructor|]. rewrite <- ins_perm. apply perm_skip. exact IH. Qed.
Variable R : A -> A -> Prop.
Hypothesis RT : forall a b c, R a b -> R b c -> R a c.
Lemma isort_sorted : forall l, (forall a b, In a l -> In b l -> a <> b -> if le a b then R a b else R b a) -> NoDup l -> StronglySorted R (isort l).
Proof.
  induction l as [|a l IH]; intros T N; cbn; [constructor|]. inversion N as [|? ? Hn N']; subst.
  assert (S : StronglySorted R (isort l)) by (apply IH; [intros x y X Y; apply T; right; assumption|exact N']).
  assert (TA : forall b, In b (isort l) -> if le a b then R a b else R b a).
  { intros b Hb. apply (Permutation_in b (Permutation_sym (isort_perm l))) in Hb. apply T; [left; reflexivity|right; exact Hb|]. intros ->. contradiction. }
  revert S TA. generalize (isort l). induction l0 as [|b r IHr]; intros S TA; cbn [ins]; [repeat constructor|].
  inversion S as [|? ? S' F]; subst. pose proof (TA b (or_introl eq_refl)) as B. destruct (le a b).
  - constructor; [exact S|]. constructor; [exact B|]. eapply Forall_impl; [|exact F]. intros c Hc. eapply RT; eassumption.
  - constructor; [apply IHr; [exact S'|intros c Hc; apply TA; right; exact Hc]|]. apply Forall_forall. intros c Hc.
    apply (Permutation_in c (Permutation_sym (ins_perm a r))) in Hc. destruct Hc as [<-|Hc]; [exact B|]. rewrite Forall_forall in F. apply F, Hc.
Qed.
End Isort.

Lemma rbefore_asym a b : rbefore a b -> ~ rbefore b a.
Proof. unfold rbefore. lia. Qed.
Lemma rbefore_trans a b c : rbefore a b -> rbefore b c -> rbefore a c.
Proof. unfold rbefore. lia. Qed.
Definition rleb (a b : rmv) : bool := (rp a <? rp b) || ((rp a =? rp b) && Nat.leb (rn b) (rn a)).
Lemma rleb_spec a b : rn a <> rn b -> if rleb a b then rbefore a b else rbefore b a.
Proof. intros N. unfold rleb, rbefore. destruct (Z.ltb_spec (rp a) (rp b)); cbn [orb]; [auto|]. destruct (Z.eqb_spec (rp a) (rp b)); cbn [andb]; [|lia]. destruct (Nat.leb_spec (rn b) (rn a)); lia. Qed.

(** A function whose first k values are computed once (for execution only). *)
Definition mat {A} (d : A) (k : nat) (f : nat -> A) : nat -> A := let l := map f (seq 0 k) in fun b => if Nat.ltb b k then nth b l d else f b.
Lemma mat_eq {A} (d : A) k f : mat d k f = f.
Proof.
  apply functional_extensionality. intros b. unfold mat. destruct (Nat.ltb_spec b k) as [X|X]; [|reflexivity].
  rewrite (nth_indep _ d (f 0%nat)) by (rewrite map_length, seq_length; exact X). rewrite map_nth. rewrite seq_nth by exact X. reflexivity.
Qed.
Section Thms.
Variables (H : hypergraph) (k : nat) (L dead : nat -> Z) (fixed : nat -> bool).
Variables (may : (nat -> Z) -> nat -> Z -> bool) (prio : Z -> Z -> Z).
Variables (scores : partition -> nat -> list (nat * Z)) (iso : partition -> nat -> Z).
Variable o : objective.
Hypothesis Wn : forall v, 0 <= nw H v.
Hypothesis Wt : total_weight H <= MAXW.
Hypothesis SK : forall P u b g, In (b, g) (scores P u) -> (b < k)%nat.
Local Notation ready := (ready H k).
Local Notation w := (nw H).
Local Notation rround := (rround H k L dead fixed may prio scores iso o).
Local Notation reb := (reb H k L dead fixed may prio scores iso o).
Local Notation rsorted := (rsorted H k L dead fixed may prio scores iso).
Local Notation rcands := (rcands H k L dead fixed may prio scores iso).
Local Notation rcand := (rcand H k L dead fixed may prio scores iso).
Local Notation rmoves := (rmoves H k L).
Local Notation rcand_spec := (rcand_spec H k L dead fixed may prio scores iso SK).

Lemma delta_out b (T : nat -> list rmv) : forall bs, NoDup bs -> (forall p m, In p bs -> In m (T p) -> rf m = p /\ rt m <> b) ->
  delta H (flat_map (fun p => map tol (T p)) bs) b = - (if in_dec Nat.eq_dec b bs then rsum H (T b) else 0).
Proof.
  induction bs as [|p bs IH]; intros N X; [reflexivity|]. inversion N as [|? ? Hn N']; subst. cbn [flat_map]. unfold delta in *. rewrite sumZ_app, IH; [|exact N'|intros q m Hq; apply X; right; exact Hq].
  assert (E : sumZ (fun m => (if Nat.eqb (lto m) b then w (ln m) else 0) - (if Nat.eqb (lfrom m) b then w (ln m) else 0)) (map tol (T p)) = - (if Nat.eqb p b then rsum H (T p) else 0)).
  { assert (Y : forall m, In m (T p) -> rf m = p /\ rt m <> b) by (intros m Hm; apply X; [left; reflexivity|exact Hm]). revert Y. generalize (T p). unfold rsum.
    induction l as [|m l IHl]; intros Y; [destruct (Nat.eqb p b); reflexivity|]. cbn [map sumZ]. rewrite IHl; [|intros; apply Y; right; assumption].
    destruct (Y m (or_introl eq_refl)) as [E1 E2]. cbn [tol lto lfrom ln]. rewrite E1. destruct (Nat.eqb_spec (rt m) b) as [E|_]; [contradiction|]. destruct (Nat.eqb p b); cbn [sumZ]; lia. }
  rewrite E. destruct (Nat.eqb_spec p b) as [->|Ne].
  - destruct (in_dec Nat.eq_dec b bs); [contradiction|]. destruct (in_dec Nat.eq_dec b (b :: bs)) as [_|Q]; [lia|exfalso; apply Q; left; reflexivity].
  - destruct (in_dec Nat.eq_dec b bs) as [I|I], (in_dec Nat.eq_dec b (p :: bs)) as [J|J]; try lia; exfalso; [apply J; right; exact I|destruct J; auto].
Qed.
(** What a round does. *)
Theorem round_ok hv s s' g hv' : ready s -> rround hv s s' g hv' ->
  ready s' /\ g = obj_spec o H (part s) - obj_spec o H (part s') /\
  (forall v, part s' v <> part s v -> In v (nodes H) /\ fixed v = false /\ exists b t, part s v = Some b /\ (b < k)%nat /\ L b < block_weight H (part s) b /\
      part s' v = Some t /\ (t < k)%nat /\ block_weight H (part s) t + w v <= L t) /\
  (forall b, (b < k)%nat -> L b < block_weight H (part s) b ->
      block_weight H (part s') b <= block_weight H (part s) b /\
      (block_weight H (part s') b <= L b /\ hv' b = false \/
       hv' b = true /\ forall v m, In v (nodes H) -> part s v = Some b -> In m (rcand (pws k s) hv (part s) v) -> part s' v = Some (rt m))).
Proof.
  intros RD (srt & S & AP & ->). pose proof RD as [ST K]. pose proof (rmoves_legal _ _ _ _ _ _ _ _ _ SK s hv srt RD S) as LG.
  destruct (apply_ok H k o (fun v _ => Wn v) Wt _ s s' g ST K LG AP) as (S1 & K1 & P1 & G1). pose proof ST as (WF & C & HC).
  assert (PW : forall b, (b < k)%nat -> pws k s b = block_weight H (part s) b) by (intros b Hb; apply (pws_eq' H); assumption).
  split; [split; assumption|]. split; [exact G1|].
  assert (MV : forall v, part s' v <> part s v -> exists r, In (tol r) (rmoves (pws k s) srt) /\ rn r = v).
  { intros v X. rewrite P1 in X. unfold after in X. destruct (find _ (rmoves (pws k s) srt)) as [m|] eqn:F; [|contradiction]. apply find_some in F. destruct F as [F E]. apply Nat.eqb_eq in E.
    destruct (rmoves_in _ _ _ _ _ _ _ _ _ SK _ _ _ _ _ S F) as (r & u & -> & _). exists r. split; [exact F|exact E]. }
  split.
  - intros v X. destruct (MV v X) as (r & I & E). destruct (rmoves_in _ _ _ _ _ _ _ _ _ SK _ _ _ _ _ S I) as (r' & u & E' & Hu & Hr & Hk & _).
    assert (rn r' = rn r /\ rt r' = rt r /\ rf r' = rf r) as (Q1 & Q2 & Q3) by (unfold tol in E'; inversion E'; auto).
    apply rcand_spec in Hr. destruct Hr as (A1 & A2 & A3 & A4 & A5 & A6 & A7). assert (EV : u = v) by congruence. rewrite EV in *.
    split; [exact Hu|]. split; [exact A4|]. exists (rf r'), (rt r'). split; [exact A2|]. split; [exact Hk|]. split; [rewrite <- PW by exact Hk; exact A3|].
    split; [rewrite P1, <- E; change (rn r) with (ln (tol r)); rewrite (after_in _ _ _ (lg_nodup _ _ _ _ LG) I); cbn; congruence|]. split; [exact A5|].
    unfold valid_target in A7. apply andb_true_iff in A7. destruct A7 as [_ A7]. apply Z.leb_le in A7. rewrite PW in A7 by exact A5. exact A7.
  - intros b Hb OV.
    assert (DL : block_weight H (part s') b = block_weight H (part s) b - rsum H (rtake H (pws k s b - L b) 0 (srt b))).
    { rewrite P1, (weight_after H k b (wf_nodes _ WF) _ _ LG). unfold DetReb.rmoves. rewrite delta_out.
      - destruct (in_dec Nat.eq_dec b (seq 0 k)) as [_|Q]; [lia|]. exfalso. apply Q. apply in_seq. lia.
      - apply seq_NoDup.
      - intros p m Hp Hm. apply in_seq in Hp. destruct (S p ltac:(lia)) as [Pm _]. pose proof (Permutation_in m (Permutation_sym Pm) (rtake_incl _ _ _ _ _ Hm)) as Y.
        apply filter_In in Y. destruct Y as [Y E]. apply Nat.eqb_eq in E. split; [exact E|]. intros Eb. apply in_flat_map in Y. destruct Y as (u & Hu & Y). apply rcand_spec in Y.
        destruct Y as (_ & _ & _ & _ & A5 & _ & A7). rewrite Eb in A7. unfold valid_target in A7. apply andb_true_iff in A7. destruct A7 as [_ A7]. apply Z.leb_le in A7. rewrite PW in A7 by exact Hb. pose proof (Wn u). lia. }
    assert (RP : forall l, 0 <= rsum H l) by (intros l; unfold rsum; apply sumZ_nonneg; intros; apply Wn).
    split; [rewrite DL; pose proof (RP (rtake H (pws k s b - L b) 0 (srt b))); lia|].
    unfold heavy'. destruct (Nat.ltb_spec b k) as [_|Q]; [|lia]. destruct (S b Hb) as [Pm _]. destruct (srt b) as [|m0 l0] eqn:EB.
    + right. cbn [isnil]. rewrite PW by exact Hb. destruct (Z.ltb_spec 0 (block_weight H (part s) b - L b)) as [_|Q]; [|lia]. split; [reflexivity|].
      intros v m Hv Hp Hm. exfalso. pose proof (rcand_spec _ _ _ _ _ Hm) as (A1 & A2 & _). assert (I : In m (filter (fun m => Nat.eqb (rf m) b) (rcands (pws k s) hv (part s)))).
      { apply filter_In. split; [apply in_flat_map; exists v; auto|]. apply Nat.eqb_eq. congruence. }
      apply (Permutation_in m Pm) in I. destruct I.
    + cbn [isnil]. rewrite <- EB in *. destruct (Z.leb_spec (pws k s b - L b) (rsum H (rtake H (pws k s b - L b) 0 (srt b)))) as [Q|Q]; cbn [negb].
      * left. split; [rewrite DL; rewrite PW in * by exact Hb; lia|reflexivity].
      * right. split; [reflexivity|]. intros v m Hv Hp Hm. pose proof (rcand_spec _ _ _ _ _ Hm) as (A1 & A2 & _ & _ & A5 & _).
        assert (EF : rf m = b) by congruence.
        assert (I : In m (rtake H (pws k s b - L b) 0 (srt b))).
        { rewrite rtake_sum by lia. apply (Permutation_in m Pm). apply filter_In. split; [apply in_flat_map; exists v; auto|]. apply Nat.eqb_eq. exact EF. }
        assert (J : In (tol m) (rmoves (pws k s) srt)). { unfold DetReb.rmoves. apply in_flat_map. exists b. split; [apply in_seq; lia|apply in_map; exact I]. }
        rewrite P1, <- A1. change (rn m) with (ln (tol m)). rewrite (after_in _ _ _ (lg_nodup _ _ _ _ LG) J). reflexivity.
Qed.
(** The flags do not change for blocks that were not overloaded. *)
Lemma round_flags hv s s' g hv' : ready s -> rround hv s s' g hv' -> forall b, (b < k)%nat -> block_weight H (part s) b <= L b -> hv' b = hv b.
Proof.
  intros RD (srt & S & AP & ->) b Hb OV. pose proof (pws_eq' H k s b RD Hb) as PW. unfold heavy'. destruct (Nat.ltb_spec b k) as [_|Q]; [|lia]. destruct (S b Hb) as [Pm _]. destruct (srt b) as [|m l].
  - cbn [isnil]. destruct (Z.ltb_spec 0 (pws k s b - L b)); [lia|reflexivity].
  - exfalso. assert (I : In m (filter (fun m => Nat.eqb (rf m) b) (rcands (pws k s) hv (part s)))) by (apply (Permutation_in m (Permutation_sym Pm)); left; reflexivity).
    apply filter_In in I. destruct I as [I E]. apply Nat.eqb_eq in E. apply in_flat_map in I. destruct I as (u & _ & I). apply rcand_spec in I. destruct I as (_ & _ & A & _). rewrite E in A. lia.
Qed.
Lemma round_det hv s t s' g hv' t' h hw : ready s -> ready t -> part s = part t -> rround hv s s' g hv' -> rround hv t t' h hw ->
  part s' = part t' /\ g = h /\ forall b, (b < k)%nat -> hv' b = hw b.
Proof.
  intros RS RT EP (srt & S & A & ->) (srt2 & S2 & A2 & ->). pose proof (pws_part' H k s t RS RT EP) as EW. rewrite <- EP, <- EW in S2.
  assert (ES : forall b, (b < k)%nat -> srt b = srt2 b).
  { intros b Hb. destruct (S b Hb) as [X1 X2], (S2 b Hb) as [Y1 Y2]. apply (ssorted_unique rbefore rbefore_asym); [|exact X2|exact Y2]. rewrite <- X1. exact Y1. }
  assert (EM : rmoves (pws k s) srt = rmoves (pws k s) srt2).
  { unfold DetReb.rmoves. rewrite !flat_map_concat_map. f_equal. apply map_ext_in. intros b Hb. apply in_seq in Hb. rewrite ES by lia. reflexivity. }
  pose proof (rmoves_legal _ _ _ _ _ _ _ _ _ SK s hv srt RS S) as LG. pose proof RS as [ST K]. pose proof RT as [ST2 K2].
  destruct (apply_ok H k o (fun v _ => Wn v) Wt _ s s' g ST K LG A) as (_ & _ & P1 & G1).
  rewrite <- EW, <- EM in A2. rewrite EP in LG. destruct (apply_ok H k o (fun v _ => Wn v) Wt _ t t' h ST2 K2 LG A2) as (_ & _ & P2 & G2).
  assert (EPs : part s' = part t') by congruence. split; [exact EPs|]. split; [rewrite G1, G2, EP, EPs; reflexivity|].
  intros b Hb. unfold heavy'. rewrite <- EW, ES by exact Hb. reflexivity.
Qed.
(** The flags matter only for existing blocks. *)
Lemma rcand_hv hv hw pw P u : (forall b, (b < k)%nat -> hv b = hw b) -> (forall b, P u = Some b -> (b < k)%nat) -> rcand pw hv P u = rcand pw hw P u.
Proof. intros E B. unfold DetReb.rcand. destruct (P u) as [b|]; [|reflexivity]. rewrite (E b) by (apply B; reflexivity). reflexivity. Qed.
Lemma round_hv hv hw s s' g hv' : ready s -> (forall b, (b < k)%nat -> hv b = hw b) -> rround hv s s' g hv' ->
  exists hw', rround hw s s' g hw' /\ forall b, (b < k)%nat -> hv' b = hw' b.
Proof.
  intros [ST K] E (srt & S & A & ->). exists (heavy' H k L (pws k s) hw srt). split.
  - exists srt. split; [|split; [exact A|reflexivity]]. intros b Hb. destruct (S b Hb) as [X1 X2]. split; [|exact X2].
    assert (EC : rcands (pws k s) hw (part s) = rcands (pws k s) hv (part s)).
    { unfold DetReb.rcands. rewrite !flat_map_concat_map. f_equal. apply map_ext. intros u. symmetry. apply rcand_hv; [exact E|]. intros c Hc. pose proof ST as (_ & C & _). rewrite <- K. apply (c_part _ _ C u c Hc). }
    rewrite EC. exact X1.
  - intros b Hb. unfold heavy'. rewrite (E b Hb). reflexivity.
Qed.
(** The round as a sequential function of the partition and the flags. *)
Definition srt_fun (pw : nat -> Z) (hv : nat -> bool) (P : partition) (b : nat) : list rmv := isort rleb (filter (fun m => Nat.eqb (rf m) b) (rcands pw hv P)).
Definition round_fun (hv : nat -> bool) (P : partition) : partition * (nat -> bool) :=
  let pw := mat 0 k (pwf H k P) in let srt := mat [] k (srt_fun pw hv P) in (after P (rmoves pw srt), mat false k (heavy' H k L pw hv srt)).
Fixpoint reb_fun (n : nat) (hv : nat -> bool) (P : partition) : partition :=
  match n with
  | O => P
  | S n => if Nat.eqb (overl k L (pwf H k P)) 0 then P else let (P', hv') := round_fun hv P in reb_fun n hv' P'
  end.
Lemma pwf_pws s : ready s -> pwf H k (part s) = pws k s.
Proof.
  intros RD. apply functional_extensionality. intros b. unfold pwf. destruct (Nat.ltb_spec b k) as [X|X]; [symmetry; apply (pws_eq' H k s b RD X)|]. unfold pws. destruct (Nat.ltb_spec b k); [lia|reflexivity].
Qed.
Lemma srt_fun_ok s hv : ready s -> rsorted (pws k s) hv (part s) (srt_fun (pws k s) hv (part s)).
Proof.
  intros RD. pose proof RD as [ST K]. intros b Hb. split; [apply isort_perm|]. pose proof ST as (WF & _). pose proof (rcands_nodup H k L dead fixed may prio scores iso SK (pws k s) hv (part s) (wf_nodes _ WF)) as ND.
  apply isort_sorted; [exact rbefore_trans| |].
  - intros x y X Y NE. apply rleb_spec. intros EN. apply NE. apply filter_In in X, Y. destruct X as [X _], Y as [Y _].
    clear - ND X Y EN. revert ND X Y. generalize (rcands (pws k s) hv (part s)). induction l as [|a l IH]; [intros _ []|]. cbn [map In]. intros ND A B. inversion ND as [|? ? Hn ND']; subst.
    destruct A as [->|A], B as [->|B]; [reflexivity| | |apply IH; assumption]; exfalso; apply Hn; [rewrite EN|rewrite <- EN]; apply in_map; assumption.
  - apply NoDup_filter. apply (NoDup_map_inv _ _ ND).
Qed.
Lemma round_total hv s : ready s -> exists s' g hv', rround hv s s' g hv'.
Proof.
  intros RD. pose proof (srt_fun_ok s hv RD) as S. set (srt := srt_fun (pws k s) hv (part s)) in *.
  destruct (apply_total H k o (rmoves (pws k s) srt) s RD (rmoves_legal _ _ _ _ _ _ _ _ _ SK s hv srt RD S)) as (s' & g & A).
  exists s', g, (heavy' H k L (pws k s) hv srt), srt. auto.
Qed.
Lemma round_fun_ok hv s s' g hv' : ready s -> rround hv s s' g hv' -> (part s', hv') = round_fun hv (part s).
Proof.
  intros RD (srt & S & A & ->). pose proof RD as [ST K]. pose proof (rmoves_legal _ _ _ _ _ _ _ _ _ SK s hv srt RD S) as LG.
  destruct (apply_ok H k o (fun v _ => Wn v) Wt _ s s' g ST K LG A) as (_ & _ & P1 & _). unfold round_fun. cbv zeta. rewrite !mat_eq, (pwf_pws s RD). pose proof (srt_fun_ok s hv RD) as S2.
  assert (ES : forall b, (b < k)%nat -> srt b = srt_fun (pws k s) hv (part s) b).
  { intros b Hb. destruct (S b Hb) as [X1 X2], (S2 b Hb) as [Y1 Y2]. apply (ssorted_unique rbefore rbefore_asym); [|exact X2|exact Y2]. rewrite <- X1. exact Y1. }
  f_equal.
  - rewrite P1. f_equal. unfold DetReb.rmoves. rewrite !flat_map_concat_map. f_equal. apply map_ext_in. intros b Hb. apply in_seq in Hb. rewrite ES by lia. reflexivity.
  - apply functional_extensionality. intros b. unfold heavy'. destruct (Nat.ltb_spec b k) as [X|X]; [rewrite (ES b X)|]; reflexivity.
Qed.
Lemma reb_fun_ok : forall n hv s s' g hv' r, reb n hv s s' g hv' r -> ready s -> part s' = reb_fun n hv (part s).
Proof.
  induction 1 as [n hv s E|hv s|n hv s s1 g1 hv1 s2 g2 hv2 r E R X IH]; intros RD.
  - destruct n; [reflexivity|]. cbn [reb_fun]. rewrite (pwf_pws s RD), E. reflexivity.
  - reflexivity.
  - cbn [reb_fun]. rewrite (pwf_pws s RD). destruct (Nat.eqb_spec (overl k L (pws k s)) 0) as [Q|_]; [contradiction|]. rewrite <- (round_fun_ok hv s s1 g1 hv1 RD R). apply IH.
    destruct (round_ok hv s s1 g1 hv1 RD R) as (R1 & _). exact R1.
Qed.
Lemma reb_total : forall n hv s, ready s -> exists s' g hv' r, reb n hv s s' g hv' r.
Proof.
  induction n as [|n IH]; intros hv s RD; [exists s, 0, hv, 0%nat; apply reb_limit|]. destruct (Nat.eq_dec (overl k L (pws k s)) 0) as [E|E]; [exists s, 0, hv, 0%nat; apply reb_balanced; exact E|].
  destruct (round_total hv s RD) as (s1 & g1 & hv1 & R). destruct (round_ok hv s s1 g1 hv1 RD R) as (R1 & _). destruct (IH hv1 s1 R1) as (s2 & g2 & hv2 & r & X).
  exists s2, (g1 + g2), hv2, (Datatypes.S r). econstructor; eassumption.
Qed.
End Thms.
