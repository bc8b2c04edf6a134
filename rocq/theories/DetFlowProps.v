(** DetFlowProps.v - C76: deterministic flow refinement: theorems. *)
From Coq Require Import FunctionalExtensionality.
From Verif Require Import Base Spec SpecLemmas PHG PHGProofs Objective GainCache GainCacheProofs Metrics PropsA Conc ConcProofs ConcMore ConcRun ConcProgress Scan DetLP DetLPThms Interleave Rollback SeqRollback Rebalance LPPool LPPoolThms DetFlow DetFlowThms LPPar.

Local Notation nds := (map (fun m : nat * nat * nat => fst (fst m))).
Local Notation tgt := (map (fun m : nat * nat * nat => (fst (fst m), snd m))).

Section Thms.
Variables (H : hypergraph) (k : nat) (o : objective) (mops : hypergraph -> sync_update -> list mop).
Hypotheses (Wn : forall v, In v (nodes H) -> 0 <= nw H v) (Wt : total_weight H <= MAXW).
Local Notation rd := (ready H k).
Local Notation obj := (obj_spec o H).
Local Notation bw := (block_weight H).

Lemma slog_obj l : wf_hg H -> forall P, complete H P k -> NoDup (nds l) -> (forall u f t, In (u, f, t) l -> In u (nodes H) /\ P u = Some f /\ (t < k)%nat) ->
  sumZ (gain_of o) (slog H P l) = obj (moves P (tgt l)) - obj P.
Proof.
  intros WF. induction l as [|[[u f] t] l IH]; intros P HC ND V; [cbn; lia|].
  destruct (V u f t (or_introl eq_refl)) as (Hu & Pu & Ht). cbn [map fst] in ND. inversion ND as [|? ? Nu N']; subst.
  cbn [slog map fst snd moves fold_left]. fold (moves (move P u t) (tgt l)). rewrite sumZ_app, IH; [| |exact N'|].
  - destruct (Nat.eqb_spec f t) as [->|Ne].
    + assert (E : move P u t = P). { apply functional_extensionality. intros v. unfold move. destruct (Nat.eq_dec v u) as [->|Nv]; [rewrite upd_same; congruence|apply upd_other; exact Nv]. }
      rewrite E. cbn [sumZ]. lia.
    + assert (X : sumZ (gain_of o) (sus_of H P u f t) = obj (move P u t) - obj P); [|lia].
      destruct o; cbn [DetLP.gain_of obj_spec]; [apply (cut_attributed H k P u f t)|apply (km1_attributed H k P u f t)|apply (soed_attributed H k P u f t)]; assumption.
  - apply complete_move; assumption.
  - intros u' f' t' I. destruct (V u' f' t' (or_intror I)) as (A & B & C). split; [exact A|]. split; [|exact C]. unfold move. rewrite upd_other; [exact B|]. intros ->. apply Nu. eapply nds_in; exact I.
Qed.

Lemma drun_inv n T s0 c0 wm0 : rd s0 -> (forall i, (i < n)%nat -> valid_task H k (part s0) (T i)) ->
  (forall i j x, (i < n)%nat -> (j < n)%nat -> in_pair (T i) x = true -> in_pair (T j) x = true -> i = j) ->
  forall ls st, drun H o mops n (dinit s0 c0 wm0 T) ls = Some st -> exists dn eff, DInv H k n o mops T s0 c0 st dn eff.
Proof.
  intros [(WF & C & HC) K] HT HD ls.
  assert (G : forall ls st0 st dn eff, DInv H k n o mops T s0 c0 st0 dn eff -> drun H o mops n st0 ls = Some st -> exists dn eff, DInv H k n o mops T s0 c0 st dn eff).
  { clear ls. unfold drun. induction ls as [|l ls IH]; intros st0 st dn eff I E; cbn [fold_opt] in E; [injection E as <-; eauto|].
    destruct (dstep H o mops n st0 l) as [st1|] eqn:E1; [|discriminate E]. destruct (dstep_inv H k n o mops T s0 c0 WF Wn Wt K HT HD _ _ _ _ _ I E1) as (dn1 & eff1 & I1). eapply IH; eauto. }
  intros st E. eapply G; [|exact E]. apply dinit_inv; assumption.
Qed.

Lemma matching_tasks P ts : valid_matching H k P ts ->
  (forall i, (i < length ts)%nat -> valid_task H k P (nth i ts (mkT 0 1 []))) /\
  (forall i j x, (i < length ts)%nat -> (j < length ts)%nat -> in_pair (nth i ts (mkT 0 1 [])) x = true -> in_pair (nth j ts (mkT 0 1 [])) x = true -> i = j).
Proof.
  intros [F D]. split.
  - intros i Hi. rewrite Forall_forall in F. apply F. apply nth_In. exact Hi.
  - intros i j x Hi Hj A B. apply (D i j _ _ x (nth_error_nth' ts (mkT 0 1 []) Hi) (nth_error_nth' ts (mkT 0 1 []) Hj) A B).
Qed.

Definition task_new (P : partition) (l : list (nat * nat * nat)) : list (nat * nat) := map (fun su => (su_he su, su_to su)) (filter (fun su => su_to_after su =? 1) (slog H P l)).

Lemma sum_tasks (g : sync_update -> Z) n T l : (forall i j x, (i < n)%nat -> (j < n)%nat -> in_pair (T i) x = true -> in_pair (T j) x = true -> i = j) ->
  (forall su, In su l -> exists i, (i < n)%nat /\ in_pair (T i) (su_from su) = true) ->
  sumZ (fun i => sumZ g (filter (fun su => in_pair (T i) (su_from su)) l)) (seq 0 n) = sumZ g l.
Proof.
  intros HD. induction l as [|su l IH]; intros Hl; [apply sumZ_zero; reflexivity|]. cbn [filter sumZ]. rewrite <- IH by (intros su' I; apply Hl; right; exact I).
  destruct (Hl su (or_introl eq_refl)) as (i & Hi & Pi).
  rewrite (sumZ_ext _ (fun j => (if Nat.eqb j i then g su else 0) + sumZ g (filter (fun su0 => in_pair (T j) (su_from su0)) l))).
  - rewrite sumZ_plus. f_equal. rewrite <- sumZ_filter. replace (filter (fun j => Nat.eqb j i) (seq 0 n)) with [i]; [cbn; lia|].
    symmetry. clear - Hi. assert (G : forall a m, (a <= i < a + m)%nat -> filter (fun j => Nat.eqb j i) (seq a m) = [i]).
    { intros a m. revert a. induction m as [|m IHm]; intros a R; [lia|]. cbn [seq filter]. destruct (Nat.eqb_spec a i) as [->|].
      - f_equal. assert (Z : forall b m, (i < b)%nat -> filter (fun j => Nat.eqb j i) (seq b m) = []). { intros b m0. revert b. induction m0 as [|m0 IH0]; intros b Hb; [reflexivity|]. cbn [seq filter]. destruct (Nat.eqb_spec b i); [lia|]. apply IH0. lia. } apply Z. lia.
      - apply IHm. lia. }
    apply G. lia.
  - intros j Hj. apply in_seq in Hj. destruct (Nat.eqb_spec j i) as [->|Ne].
    + rewrite Pi. cbn [sumZ]. lia.
    + destruct (in_pair (T j) (su_from su)) eqn:Ej; [exfalso; apply Ne; apply (HD j i (su_from su)); [lia|exact Hi|exact Ej|exact Pi]|]. lia.
Qed.

(** The results of a matching, for every schedule: the partition is the one in which every move has been made; every task reports
    exactly the improvement its sequence would yield alone, and these add up; every block gets the weight it would get by the
    sequence of its own pair. *)
Theorem apply_matching_ok s c wm ts s' c' wm' imps new : rd s -> valid_matching H k (part s) ts -> apply_matching H o mops s c wm ts s' c' wm' imps new ->
  rd s' /\
  (forall t u f b, In t ts -> In (u, f, b) (t_mv t) -> part s' u = Some b) /\
  (forall v, (forall t, In t ts -> ~ In v (nds (t_mv t))) -> part s' v = part s v) /\
  imps = map (fun t => obj (part s) - obj (moves (part s) (tgt (t_mv t)))) ts /\
  obj (part s') = obj (part s) - sumZ (fun x => x) imps /\
  (forall t b, In t ts -> in_pair t b = true -> forall v, in_block (part s') b v = in_block (moves (part s) (tgt (t_mv t))) b v) /\
  (forall b, (forall t, In t ts -> in_pair t b = false) -> forall v, in_block (part s') b v = in_block (part s) b v) /\
  (forall t, In t ts -> filter (fun x => in_pair t (snd x)) new = task_new (part s) (t_mv t)) /\
  (forall x, In x new -> exists t, In t ts /\ in_pair t (snd x) = true).
Proof.
  intros R VM (ls & st & Run & Dn & -> & -> & -> & -> & ->). set (n := length ts) in *. set (d0 := mkT 0 1 []) in *. set (T := fun i => nth i ts d0) in *.
  destruct (matching_tasks _ _ VM) as [HT HD]. fold n d0 in HT, HD. change (forall i, (i < n)%nat -> valid_task H k (part s) (T i)) in HT.
  change (forall i j x, (i < n)%nat -> (j < n)%nat -> in_pair (T i) x = true -> in_pair (T j) x = true -> i = j) in HD.
  destruct (drun_inv n T s c wm R HT HD ls st Run) as (dn & eff & I). pose proof R as [(WF & C & HC) K].
  assert (Q : quiescent n (d_c st)) by (intros i Hi; apply Dn; exact Hi).
  assert (Ed : forall i, (i < n)%nat -> t_mv (T i) = dn i).
  { intros i Hi. destruct (Dn i Hi) as [D1 D2]. rewrite (i_split _ _ _ _ _ _ _ _ _ _ _ I i Hi), D1, D2. unfold cur. cbn. apply app_nil_r. }
  destruct (i_run _ _ _ _ _ _ _ _ _ _ _ I) as (cl & CR).
  destruct (conc_quiescent H n mops WF s c cl (d_c st) C HC CR Q) as (K' & C' & HC' & _).
  assert (TI : forall t, In t ts -> exists i, (i < n)%nat /\ T i = t).
  { intros t It. apply (In_nth _ _ d0) in It. destruct It as (i & Hi & E). exists i. split; assumption. }
  assert (IT : forall i, (i < n)%nat -> In (T i) ts) by (intros i Hi; apply nth_In; exact Hi).
  assert (Pd : forall t u f b, In t ts -> In (u, f, b) (t_mv t) -> part (sh (d_c st)) u = Some b).
  { intros t u f b It Iu. destruct (TI t It) as (i & Hi & <-). rewrite Ed in Iu by exact Hi. eapply (i_part _ _ _ _ _ _ _ _ _ _ _ I); eauto. }
  assert (Po : forall v, (forall t, In t ts -> ~ In v (nds (t_mv t))) -> part (sh (d_c st)) v = part s v).
  { intros v Nv. apply (i_rest _ _ _ _ _ _ _ _ _ _ _ I). intros i Hi. apply Nv. apply IT. exact Hi. }
  assert (TL : forall i, (i < n)%nat -> tlog T (d_c st) i = slog H (part s) (t_mv (T i))).
  { intros i Hi. destruct (i_log _ _ _ _ _ _ _ _ _ _ _ I i Hi) as (hd & L1 & _). rewrite L1, (Q i Hi), Ed by exact Hi. cbn. apply app_nil_r. }
  assert (SO : forall i, (i < n)%nat -> sumZ (gain_of o) (slog H (part s) (t_mv (T i))) = obj (moves (part s) (tgt (t_mv (T i)))) - obj (part s)).
  { intros i Hi. destruct (HT i Hi) as (A1 & A2 & A3 & A4). apply slog_obj; [exact WF|rewrite <- K; exact HC|exact A3|]. intros u f t It. destruct (A4 u f t It) as (B1 & B2 & _ & B4).
    split; [exact B1|]. split; [exact B2|]. unfold in_pair in B4. apply orb_true_iff in B4. destruct B4 as [B4|B4]; apply Nat.eqb_eq in B4; subst; assumption. }
  assert (Im : forall i, (i < n)%nat -> d_imp st i = obj (part s) - obj (moves (part s) (tgt (t_mv (T i))))).
  { intros i Hi. rewrite (i_imp _ _ _ _ _ _ _ _ _ _ _ I i Hi), TL, SO by exact Hi. lia. }
  assert (Lp : forall su, In su (rev (log (d_c st))) -> exists i, (i < n)%nat /\ in_pair (T i) (su_from su) = true /\ in_pair (T i) (su_to su) = true).
  { intros su X. apply in_rev in X. exact (i_pairs _ _ _ _ _ _ _ _ _ _ _ I su X). }
  split; [split; [split; [exact WF|split; [exact C'|rewrite K'; exact HC']]|congruence]|].
  split; [exact Pd|]. split; [exact Po|].
  assert (Ei : map (d_imp st) (seq 0 n) = map (fun t => obj (part s) - obj (moves (part s) (tgt (t_mv t)))) ts).
  { rewrite (map_ext_in _ (fun i => obj (part s) - obj (moves (part s) (tgt (t_mv (T i)))))) by (intros i Hi; apply in_seq in Hi; apply Im; lia).
    rewrite <- (map_map T (fun t => obj (part s) - obj (moves (part s) (tgt (t_mv t))))). f_equal. unfold T, n. clear.
    apply nth_ext with (d := d0) (d' := d0); [rewrite map_length, seq_length; reflexivity|]. intros i Hi. rewrite map_length, seq_length in Hi.
    rewrite (nth_indep _ d0 (nth 0 ts d0)) by (rewrite map_length, seq_length; exact Hi). rewrite (map_nth (fun i => nth i ts d0) (seq 0 (length ts)) 0%nat i), seq_nth by exact Hi. reflexivity. }
  split; [exact Ei|]. split.
  { assert (LO : sumZ (gain_of o) (log (d_c st)) = obj (part (sh (d_c st))) - obj (part s)).
    { destruct o; cbn [DetLP.gain_of obj_spec].
      - apply (conc_gains H n mops WF cut_gain_of cut_edge (cut_edge_gain H) (cut_edge_ext H) s c cl (d_c st) C HC CR Q).
      - apply (conc_gains H n mops WF km1_gain_of km1_edge (km1_edge_gain H) (km1_edge_ext H) s c cl (d_c st) C HC CR Q).
      - apply (conc_gains H n mops WF soed_gain_of soed_edge (soed_edge_gain H) (soed_edge_ext H) s c cl (d_c st) C HC CR Q). }
    assert (S1 : sumZ (fun x => x) (map (d_imp st) (seq 0 n)) = - sumZ (gain_of o) (log (d_c st))).
    { rewrite sumZ_map. rewrite (sumZ_ext _ (fun i => - sumZ (gain_of o) (tlog T (d_c st) i))) by (intros i Hi; apply in_seq in Hi; apply (i_imp _ _ _ _ _ _ _ _ _ _ _ I); lia).
      rewrite <- (sumZ_perm (gain_of o) (rev (log (d_c st))) (log (d_c st))) by (symmetry; apply Permutation_rev).
      rewrite <- (sum_tasks (gain_of o) n T _ HD) by (intros su X; destruct (Lp su X) as (i & A & B & _); eauto).
      unfold tlog. clear. induction (seq 0 n) as [|a l IH]; cbn [sumZ]; lia. }
    lia. }
  assert (MO : forall i v, (i < n)%nat -> (forall f b, In (v, f, b) (t_mv (T i)) -> moves (part s) (tgt (t_mv (T i))) v = Some b) /\ (~ In v (nds (t_mv (T i))) -> moves (part s) (tgt (t_mv (T i))) v = part s v)).
  { intros i v Hi. rewrite Ed by exact Hi. apply (moves_dn H k n o mops T s c HT st dn eff i v I Hi). }
  assert (OT : forall i j v, (i < n)%nat -> (j < n)%nat -> In v (nds (t_mv (T j))) -> i <> j -> forall b, in_pair (T i) b = true -> in_block (part s) b v = false /\ in_block (part (sh (d_c st))) b v = false).
  { intros i j v Hi Hj Iv Ne b Hb. apply in_nds in Iv. destruct Iv as (f & t & Iv). destruct (HT j Hj) as (_ & _ & _ & V). destruct (V _ _ _ Iv) as (_ & Pv & Hf & Ht).
    unfold in_block. rewrite Pv, (Pd (T j) v f t (IT j Hj) Iv). split; apply Nat.eqb_neq; intros ->; apply Ne; eapply HD; eauto. }
  split.
  { intros t b It Hb v. destruct (TI t It) as (i & Hi & <-). destruct (MO i v Hi) as [M1 M2].
    destruct (in_dec Nat.eq_dec v (nds (t_mv (T i)))) as [Iv|Nv].
    - apply in_nds in Iv. destruct Iv as (f & t & Iv). unfold in_block. rewrite (M1 _ _ Iv), (Pd _ _ _ _ It Iv). reflexivity.
    - unfold in_block at 2. rewrite (M2 Nv). fold (in_block (part s) b v).
      destruct (existsb (fun j => mem v (nds (t_mv (T j)))) (seq 0 n)) eqn:X.
      + apply existsb_exists in X. destruct X as (j & Hj & Mv). apply in_seq in Hj. apply mem_In in Mv.
        assert (Ne : i <> j) by (intros ->; contradiction). destruct (OT i j v Hi ltac:(lia) Mv Ne b Hb) as [-> ->]. reflexivity.
      + unfold in_block. rewrite Po; [reflexivity|]. intros t It' Y. destruct (TI t It') as (j & Hj & <-).
        assert (existsb (fun j => mem v (nds (t_mv (T j)))) (seq 0 n) = true) by (apply existsb_exists; exists j; split; [apply in_seq; lia|apply mem_In; exact Y]). congruence. }
  split.
  { intros b Nb v. destruct (existsb (fun j => mem v (nds (t_mv (T j)))) (seq 0 n)) eqn:X.
    - apply existsb_exists in X. destruct X as (j & Hj & Mv). apply in_seq in Hj. apply mem_In in Mv. apply in_nds in Mv. destruct Mv as (f & t & Iv).
      destruct (HT j ltac:(lia)) as (_ & _ & _ & V). destruct (V _ _ _ Iv) as (_ & Pv & Hf & Ht). unfold in_block. rewrite Pv, (Pd (T j) v f t (IT j ltac:(lia)) Iv).
      specialize (Nb (T j) (IT j ltac:(lia))). destruct (Nat.eqb_spec t b) as [->|]; [congruence|]. destruct (Nat.eqb_spec f b) as [->|]; [congruence|]. reflexivity.
    - unfold in_block. rewrite Po; [reflexivity|]. intros t It' Y. destruct (TI t It') as (j & Hj & <-).
      assert (existsb (fun j => mem v (nds (t_mv (T j)))) (seq 0 n) = true) by (apply existsb_exists; exists j; split; [apply in_seq; lia|apply mem_In; exact Y]). congruence. }
  rewrite (i_new _ _ _ _ _ _ _ _ _ _ _ I). split.
  { intros t It. destruct (TI t It) as (i & Hi & <-). unfold task_new. rewrite <- TL by exact Hi. unfold tlog. revert Lp. generalize (rev (log (d_c st))) as l. clear - HD Hi.
    induction l as [|su l IH]; intros Lp; [reflexivity|]. specialize (IH ltac:(intros su' X; apply Lp; right; exact X)).
    destruct (Lp su (or_introl eq_refl)) as (j & Hj & A & B). cbn [filter].
    assert (Ex : in_pair (T i) (su_from su) = in_pair (T i) (su_to su)).
    { destruct (in_pair (T i) (su_from su)) eqn:E1; destruct (in_pair (T i) (su_to su)) eqn:E2; try reflexivity.
      - rewrite (HD i j _ Hi Hj E1 A) in E2. congruence.
      - rewrite (HD i j _ Hi Hj E2 B) in E1. congruence. }
    destruct (su_to_after su =? 1) eqn:Ea; cbn [map filter snd].
    - rewrite Ex. destruct (in_pair (T i) (su_to su)); cbn [filter map]; [rewrite Ea; cbn [map]; rewrite IH; reflexivity|exact IH].
    - destruct (in_pair (T i) (su_from su)); cbn [filter]; [rewrite Ea|]; exact IH. }
  intros x X. apply in_map_iff in X. destruct X as (su & <- & X). apply filter_In in X. destruct X as [X _]. destruct (Lp su X) as (i & Hi & _ & B). exists (T i). split; [apply IT; exact Hi|exact B].
Qed.

End Thms.

Section Thms2.
Variables (H : hypergraph) (k : nat) (o : objective) (mops : hypergraph -> sync_update -> list mop).
Hypotheses (Wn : forall v, In v (nodes H) -> 0 <= nw H v) (Wt : total_weight H <= MAXW).
Local Notation rd := (ready H k).
Local Notation obj := (obj_spec o H).
Local Notation bw := (block_weight H).
Local Notation task_new := (task_new H).

Lemma bw_ext P Q b : (forall v, in_block P b v = in_block Q b v) -> bw P b = bw Q b.
Proof. intros E. unfold block_weight. f_equal. apply filter_ext. exact E. Qed.
Lemma pc_ext P Q e b : (forall v, in_block P b v = in_block Q b v) -> pin_count H P e b = pin_count H Q e b.
Proof. intros E. unfold pin_count. do 2 f_equal. apply filter_ext. exact E. Qed.

(** C76, one matching: see [apply_matching_ok]. *)
Theorem C76_matching s c wm ts s' c' wm' imps new : rd s -> valid_matching H k (part s) ts -> apply_matching H o mops s c wm ts s' c' wm' imps new ->
  rd s' /\
  (forall t u f b, In t ts -> In (u, f, b) (t_mv t) -> part s' u = Some b) /\
  (forall v, (forall t u f b, In t ts -> In (u, f, b) (t_mv t) -> u <> v) -> part s' v = part s v) /\
  imps = map (fun t => obj (part s) - obj (moves (part s) (tgt (t_mv t)))) ts /\
  obj (part s') = obj (part s) - sumZ (fun x => x) imps /\
  (forall t b, In t ts -> in_pair t b = true -> bw (part s') b = bw (moves (part s) (tgt (t_mv t))) b) /\
  (forall b, (forall t, In t ts -> in_pair t b = false) -> bw (part s') b = bw (part s) b).
Proof.
  intros R VM A. destruct (apply_matching_ok H k o mops Wn Wt _ _ _ _ _ _ _ _ _ R VM A) as (A1 & A2 & A3 & A4 & A5 & A6 & A7 & _).
  split; [exact A1|]. split; [exact A2|]. split; [intros v Nv; apply A3; intros t It Iv; apply in_nds in Iv; destruct Iv as (f & b & Iv); exact (Nv t v f b It Iv eq_refl)|].
  split; [exact A4|]. split; [exact A5|]. split; [intros t b It Hb; apply bw_ext; auto|]. intros b Nb. apply bw_ext. auto.
Qed.

Lemma slog_cover l e b : wf_hg H -> In e (edges H) -> forall P, NoDup (nds l) -> (forall u f t, In (u, f, t) l -> In u (nodes H) /\ P u = Some f) ->
  0 < pin_count H (moves P (tgt l)) e b -> 0 < pin_count H P e b \/ In (e, b) (task_new P l).
Proof.
  intros WF He. unfold task_new. induction l as [|[[u f] t] l IH]; intros P ND V Pos; [left; exact Pos|].
  cbn [map fst] in ND. inversion ND as [|? ? Nu N']; subst. destruct (V u f t (or_introl eq_refl)) as (Hu & Pu).
  cbn [map fst snd moves fold_left] in Pos. fold (moves (move P u t) (tgt l)) in Pos.
  destruct (IH (move P u t) N') as [X|X]; [| exact Pos| |].
  - intros u' f' t' I. destruct (V u' f' t' (or_intror I)) as (A & B). split; [exact A|]. unfold move. rewrite upd_other; [exact B|]. intros ->. apply Nu. eapply nds_in; exact I.
  - cbn [slog]. rewrite filter_app, map_app. destruct (Z.ltb_spec 0 (pin_count H P e b)) as [Y|Y]; [left; exact Y|right].
    pose proof (pin_count_nonneg H P e b) as NN. assert (Z0 : pin_count H P e b = 0) by lia. clear NN Y.
    rewrite (pin_count_move H P u t e b (wf_pins_nodup H WF e He)) in X. destruct (mem u (pins H e)) eqn:Mu; [|lia]. apply mem_In in Mu.
    unfold in_block in X. rewrite Pu in X. destruct (Nat.eqb_spec t b) as [->|]; [|destruct (Nat.eqb f b); cbn in X; lia].
    destruct (Nat.eqb_spec f b) as [->|Ne]; [cbn in X; lia|]. apply in_or_app. left. apply in_map_iff.
    exists (entry H P f b e). split; [reflexivity|]. apply filter_In. split; [|cbn; rewrite Z0; reflexivity].
    unfold sus_of. apply in_map_iff. exists e. split; [reflexivity|]. apply (wf_inc H WF u e Hu). auto.
  - right. cbn [slog]. rewrite filter_app, map_app. apply in_or_app. right. exact X.
Qed.
(** Every block a hyperedge touches after the matching but not before is reported to the quotient graph. *)
Theorem C76_new_blocks s c wm ts s' c' wm' imps new e b : rd s -> valid_matching H k (part s) ts -> apply_matching H o mops s c wm ts s' c' wm' imps new ->
  In e (edges H) -> pin_count H (part s) e b = 0 -> 0 < pin_count H (part s') e b -> In (e, b) new.
Proof.
  intros R VM A He Z0 Pos. destruct (apply_matching_ok H k o mops Wn Wt _ _ _ _ _ _ _ _ _ R VM A) as (_ & _ & _ & _ & _ & A6 & A7 & A8 & _).
  pose proof R as [(WF & C & HC) K]. destruct (existsb (fun t => in_pair t b) ts) eqn:X.
  - apply existsb_exists in X. destruct X as (t & It & Hb). rewrite (pc_ext _ _ e b (A6 t b It Hb)) in Pos.
    destruct VM as [F _]. rewrite Forall_forall in F. destruct (F t It) as (_ & _ & ND & V).
    destruct (slog_cover (t_mv t) e b WF He (part s) ND) as [Y|Y]; [|exact Pos|lia|].
    + intros u f x Iu. destruct (V u f x Iu) as (B1 & B2 & _). auto.
    + rewrite <- (A8 t It) in Y. apply filter_In in Y. apply Y.
  - exfalso. rewrite (pc_ext _ _ e b (A7 b ltac:(intros t It; destruct (in_pair t b) eqn:Y; [|reflexivity]; assert (existsb (fun t => in_pair t b) ts = true) by (apply existsb_exists; eauto); congruence))) in Pos. lia.
Qed.

Lemma new_of_task new t e b : in_pair t b = true -> new_of new e b = new_of (filter (fun x => in_pair t (snd x)) new) e b.
Proof.
  intros Hb. unfold new_of. induction new as [|[e' b'] l IH]; [reflexivity|]. cbn [filter fst snd].
  destruct (in_pair t b') eqn:X; cbn [filter fst snd].
  - destruct (Nat.eqb e e' && Nat.eqb b b'); cbn [length]; rewrite IH; reflexivity.
  - destruct (Nat.eqb_spec b b') as [<-|]; [congruence|]. rewrite andb_false_r. exact IH.
Qed.
(** C76, determinism of one matching: partition, improvements and reported hyperedges do not depend on the schedule (nor on the gain cache). *)
Theorem C76_schedule_independent s c wm ts s1 c1 wm1 imps1 new1 r d wn s2 c2 wm2 imps2 new2 mops2 :
  rd s -> rd r -> part r = part s -> valid_matching H k (part s) ts ->
  apply_matching H o mops s c wm ts s1 c1 wm1 imps1 new1 -> apply_matching H o mops2 r d wn ts s2 c2 wm2 imps2 new2 ->
  part s1 = part s2 /\ imps1 = imps2 /\ new_of new1 = new_of new2.
Proof using Wn Wt.
  intros R R2 EP VM A B. destruct (apply_matching_ok H k o mops Wn Wt _ _ _ _ _ _ _ _ _ R VM A) as (_ & A2 & A3 & A4 & _ & _ & _ & A8 & A9).
  assert (BB : (forall t u f b, In t ts -> In (u, f, b) (t_mv t) -> part s2 u = Some b) /\ (forall v, (forall t, In t ts -> ~ In v (nds (t_mv t))) -> part s2 v = part s v) /\
    imps2 = map (fun t => obj (part s) - obj (moves (part s) (tgt (t_mv t)))) ts /\ (forall t, In t ts -> filter (fun x => in_pair t (snd x)) new2 = task_new (part s) (t_mv t)) /\
    (forall x, In x new2 -> exists t, In t ts /\ in_pair t (snd x) = true)).
  { rewrite <- EP in VM. destruct (apply_matching_ok H k o mops2 Wn Wt r d wn ts s2 c2 wm2 imps2 new2 R2 VM B) as (_ & B2 & B3 & B4 & _ & _ & _ & B8 & B9). rewrite EP in *. auto. }
  destruct BB as (B2 & B3 & B4 & B8 & B9). split; [|split].
  - apply functional_extensionality. intros v. destruct (existsb (fun t => mem v (nds (t_mv t))) ts) eqn:X.
    + apply existsb_exists in X. destruct X as (t & It & Iv). apply mem_In in Iv. apply in_nds in Iv. destruct Iv as (f & b & Iv). rewrite (A2 _ _ _ _ It Iv), (B2 _ _ _ _ It Iv). reflexivity.
    + assert (N : forall t, In t ts -> ~ In v (nds (t_mv t))) by (intros t It Y; assert (existsb (fun t => mem v (nds (t_mv t))) ts = true) by (apply existsb_exists; exists t; split; [exact It|apply mem_In; exact Y]); congruence).
      rewrite A3, B3 by exact N. reflexivity.
  - congruence.
  - apply functional_extensionality. intros e. apply functional_extensionality. intros b.
    destruct (existsb (fun t => in_pair t b) ts) eqn:X.
    + apply existsb_exists in X. destruct X as (t & It & Hb). rewrite (new_of_task new1 t e b Hb), (new_of_task new2 t e b Hb), A8, B8 by exact It. reflexivity.
    + assert (Z : forall new, (forall x, In x new -> exists t, In t ts /\ in_pair t (snd x) = true) -> new_of new e b = 0%nat).
      { intros new HN. unfold new_of. induction new as [|[e' b'] l IH]; [reflexivity|]. cbn [filter fst snd]. destruct (Nat.eqb_spec b b') as [<-|].
        - exfalso. destruct (HN (e', b) (or_introl eq_refl)) as (t & It & Hb). cbn in Hb. assert (existsb (fun t => in_pair t b) ts = true) by (apply existsb_exists; eauto). congruence.
        - rewrite andb_false_r. apply IH. intros x Hx. apply HN. right; exact Hx. }
      rewrite (Z new1 A9), (Z new2 B9). reflexivity.
Qed.

(** *** The whole refinement *)
Section Whole.
Variable next : partition -> list report -> option (list task).
Hypothesis HN : forall P h ts, complete H P k -> next P h = Some ts -> valid_matching H k P ts.
(** A flow computation alone neither worsens the objective nor overloads a block of its pair beyond [Lb]. *)
Definition flows_ok (Lb : nat -> Z) : Prop := forall P h ts t, complete H P k -> next P h = Some ts -> In t ts ->
  obj (moves P (tgt (t_mv t))) <= obj P /\ forall b, in_pair t b = true -> bw P b <= Lb b -> bw (moves P (tgt (t_mv t))) b <= Lb b.

(** C76: the reported quality is exact; if every flow computation alone respects the limits and does not worsen the objective, neither
    does their concurrent application. *)
Theorem C76_refine s c wm h q s' q' h' : rd s -> det_flow H o mops next s c wm h q s' q' h' ->
  rd s' /\ q' - obj (part s') = q - obj (part s) /\
  forall Lb, flows_ok Lb -> obj (part s') <= obj (part s) /\
    ((forall b, (b < k)%nat -> bw (part s) b <= Lb b) -> forall b, (b < k)%nat -> bw (part s') b <= Lb b).
Proof using Wn Wt HN.
  intros R D. induction D as [s c wm h q E|s c wm h q ts s1 c1 wm1 imps new s2 q2 h2 E A D IH].
  - split; [exact R|]. split; [reflexivity|]. intros Lb _. split; [lia|auto].
  - pose proof R as [(WF & C & HC) K]. rewrite K in HC. pose proof (HN _ _ _ HC E) as VM. destruct (C76_matching _ _ _ _ _ _ _ _ _ R VM A) as (R1 & _ & _ & A4 & A5 & A6 & A7).
    destruct (IH R1) as (R2 & Q2 & F2). split; [exact R2|]. split; [lia|]. intros Lb FO. destruct (F2 Lb FO) as [O2 B2]. split.
    + assert (0 <= sumZ (fun x => x) imps); [|lia]. rewrite A4. rewrite sumZ_map. apply sumZ_nonneg. intros t It. destruct (FO _ _ _ _ HC E It) as [X _]. lia.
    + intros Hb. apply B2. intros b Hk. destruct (existsb (fun t => in_pair t b) ts) eqn:X.
      * apply existsb_exists in X. destruct X as (t & It & Pb). rewrite (A6 t b It Pb). destruct (FO _ _ _ _ HC E It) as [_ Y]. apply Y; [exact Pb|]. apply Hb. exact Hk.
      * rewrite A7; [apply Hb; exact Hk|]. intros t It. destruct (in_pair t b) eqn:Y; [|reflexivity]. assert (existsb (fun t => in_pair t b) ts = true) by (apply existsb_exists; eauto). congruence.
Qed.

(** C76: two executions from the same partition end with the same partition, quality and reports. *)
Theorem C76_deterministic s c wm h q s1 q1 h1 : rd s -> det_flow H o mops next s c wm h q s1 q1 h1 ->
  forall r d wn s2 q2 h2, rd r -> part r = part s -> det_flow H o mops next r d wn h q s2 q2 h2 -> part s1 = part s2 /\ q1 = q2 /\ h1 = h2.
Proof using Wn Wt HN.
  intros R D. induction D as [s c wm h q E|s c wm h q ts s1 c1 wm1 imps new s2 q2 h2 E A D IH]; intros r d wn s3 q3 h3 R3 EP D3.
  - destruct D3 as [r d wn h q E'|r d wn h q ts' s3 c3 wm3 imps3 new3 s4 q4 h4 E' A' D']; [auto|]. rewrite EP in E'. congruence.
  - pose proof R as [(WF & C & HC) K]. rewrite K in HC. pose proof (HN _ _ _ HC E) as VM.
    destruct D3 as [r d wn h q E'|r d wn h q ts' s3 c3 wm3 imps3 new3 s4 q4 h4 E' A' D']; [rewrite EP in E'; congruence|].
    rewrite EP, E in E'. injection E' as <-.
    destruct (C76_schedule_independent _ _ _ _ _ _ _ _ _ _ _ _ _ _ _ _ _ _ R R3 EP VM A A') as (X1 & X2 & X3).
    destruct (C76_matching _ _ _ _ _ _ _ _ _ R VM A) as (R1 & _). rewrite <- EP in VM. destruct (C76_matching _ _ _ _ _ _ _ _ _ R3 VM A') as (R1' & _).
    apply (IH R1 s3 c3 wm3 s4 q4 h4 R1' (eq_sym X1)). rewrite X2, X3. exact D'.
Qed.
End Whole.

(** *** Every execution can be completed *)
Section Done.
Hypothesis Hcost : forall su, (opscost (mops H su) <= 8 * length (pins H (su_he su)))%nat.
Definition mcost (m : nat * nat * nat) : nat := (3 + remcost H (inc H (fst (fst m))))%nat.
Definition dwork (n : nat) (st : dst) : nat := (work H n (d_c st) + list_sum (map (fun i => list_sum (map mcost (d_todo st i))) (seq 0 n)))%nat.
Lemma todo_upd n (f : nat -> list (nat * nat * nat)) i l : (i < n)%nat ->
  (list_sum (map (fun j => list_sum (map mcost (upd f i l j))) (seq 0 n)) + list_sum (map mcost (f i)) = list_sum (map (fun j => list_sum (map mcost (f j))) (seq 0 n)) + list_sum (map mcost l))%nat.
Proof.
  intros Hi. assert (X : forall r, NoDup r -> (list_sum (map (fun j => list_sum (map mcost (upd f i l j))) r) + (if mem i r then list_sum (map mcost (f i)) else 0) =
               list_sum (map (fun j => list_sum (map mcost (f j))) r) + (if mem i r then list_sum (map mcost l) else 0))%nat).
  { induction r as [|a r IH]; intros Nd; [reflexivity|]. inversion Nd; subst. specialize (IH H3). unfold mem. cbn [map list_sum existsb fold_right].
    fold (mem i r). fold (list_sum (map (fun j => list_sum (map mcost (upd f i l j))) r)). fold (list_sum (map (fun j => list_sum (map mcost (f j))) r)). destruct (Nat.eqb_spec i a) as [->|Hne]; cbn [orb].
    - rewrite upd_same. replace (mem a r) with false in IH by (symmetry; apply mem_false; assumption). lia.
    - rewrite upd_other by congruence. lia. }
  specialize (X (seq 0 n) (seq_NoDup _ _)). rewrite (mem_seq i n Hi) in X. exact X.
Qed.
Lemma dstep_decreases n st l st' : dstep H o mops n st l = Some st' -> (dwork n st' < dwork n st)%nat.
Proof.
  intros E. destruct l as [i|i]; cbn [dstep] in E.
  - destruct (i <? n)%nat eqn:Hi; [|discriminate E]. apply Nat.ltb_lt in Hi. cbn [andb] in E. destruct (idleb (th (d_c st) i)) eqn:Eb; [|discriminate E].
    assert (Et : th (d_c st) i = Idle) by (destruct (th (d_c st) i); cbn in Eb; congruence).
    destruct (d_todo st i) as [|[[u f] t] r] eqn:Ed; [discriminate E|].
    pose proof (todo_upd n (d_todo st) i r Hi) as TU. rewrite Ed in TU. cbn [map list_sum fold_right] in TU. fold (list_sum (map mcost r)) in TU. unfold mcost at 2 in TU. cbn [fst] in TU.
    destruct (Nat.eqb f t); injection E as <-; unfold dwork; cbn [d_c d_todo].
    + lia.
    + unfold work, ubegin. cbn [set_th set_sh th]. pose proof (work_upd H n (th (d_c st)) i (Added (mkMv u f t MAXW) (wt (add_wt (sh (d_c st)) t (nw H u)) t)) Hi) as WU. rewrite Et in WU. cbn [tcost m_u] in WU. cbn [m_to m_u]. lia.
  - destruct (i <? n)%nat eqn:Hi; [|discriminate E]. destruct (adv H mops (d_c st) i) as [c'|] eqn:Ea; [|discriminate E].
    assert (Cs : cstep H n mops (d_c st) (Adv i) = Some c') by (cbn [cstep]; rewrite Hi; exact Ea).
    pose proof (adv_decreases H n mops Hcost _ _ _ Cs) as W. destruct (match th (d_c st) i with Incd _ _ su => _ | _ => _ end) as [imp' new']. injection E as <-. unfold dwork. cbn [d_c d_todo]. lia.
Qed.
(** No state a schedule can reach is stuck, and no schedule is longer than a bound known in advance. *)
Theorem C76_completes s c wm ts ls st : rd s -> valid_matching H k (part s) ts ->
  drun H o mops (length ts) (dinit s c wm (fun i => nth i ts (mkT 0 1 []))) ls = Some st ->
  (length ls <= dwork (length ts) (dinit s c wm (fun i => nth i ts (mkT 0 1 []))))%nat /\
  exists ls' st', drun H o mops (length ts) st ls' = Some st' /\ ddone (length ts) st'.
Proof using Wn Wt Hcost.
  intros R VM E. destruct (matching_tasks H k _ _ VM) as [HT HD]. split.
  - assert (G : forall l a b, drun H o mops (length ts) a l = Some b -> (length l + dwork (length ts) b <= dwork (length ts) a)%nat).
    { unfold drun. induction l as [|x l IH]; intros a b X; cbn [fold_opt] in X; [injection X as <-; cbn; lia|]. destruct (dstep H o mops (length ts) a x) as [a1|] eqn:E1; [|discriminate X].
      pose proof (dstep_decreases _ _ _ _ E1). specialize (IH _ _ X). cbn [length]. lia. }
    specialize (G _ _ _ E). lia.
  - remember (dwork (length ts) st) as m eqn:Em. assert (Le : (dwork (length ts) st <= m)%nat) by lia. clear Em. revert ls st E Le. induction m as [m IH] using lt_wf_ind. intros ls st E Le.
    assert (ST : forall l st1, dstep H o mops (length ts) st l = Some st1 -> exists ls' st', drun H o mops (length ts) st ls' = Some st' /\ ddone (length ts) st').
    { intros l st1 E1. pose proof (dstep_decreases _ _ _ _ E1) as W. destruct (IH (dwork (length ts) st1) ltac:(lia) (ls ++ [l]) st1) as (ls' & st' & R1 & R2); [| lia|].
      - unfold drun in *. rewrite fold_opt_app, E. cbn [fold_opt]. rewrite E1. reflexivity.
      - exists (l :: ls'), st'. split; [|exact R2]. unfold drun in *. cbn [fold_opt]. rewrite E1. exact R1. }
    destruct (drun_inv H k o mops Wn Wt _ _ s c wm R HT HD ls st E) as (dn & eff & I). pose proof R as [(WF & C & HC) K]. destruct (i_run _ _ _ _ _ _ _ _ _ _ _ I) as (cl & CR).
    destruct (forallb (fun i => idleb (th (d_c st) i)) (seq 0 (length ts))) eqn:Q.
    + rewrite forallb_forall in Q. destruct (forallb (fun i => match d_todo st i with [] => true | _ => false end) (seq 0 (length ts))) eqn:Z.
      * rewrite forallb_forall in Z. exists [], st. split; [reflexivity|]. intros i Hi. assert (Hs : In i (seq 0 (length ts))) by (apply in_seq; lia). specialize (Q i Hs). specialize (Z i Hs).
        split; [destruct (d_todo st i); congruence|]. destruct (th (d_c st) i); cbn in Q; congruence.
      * assert (X : exists i, (i < length ts)%nat /\ d_todo st i <> []).
        { assert (Y : exists i, In i (seq 0 (length ts)) /\ d_todo st i <> []). { clear - Z. induction (seq 0 (length ts)) as [|a l IHl]; [discriminate Z|]. cbn [forallb] in Z. destruct (d_todo st a) eqn:Ea.
            - destruct (IHl Z) as (i & A & B). exists i. split; [right; exact A|exact B]. - exists a. split; [left; reflexivity|congruence]. }
          destruct Y as (i & A & B). apply in_seq in A. exists i. split; [lia|exact B]. }
        destruct X as (i & Hi & Ne). destruct (d_todo st i) as [|[[u f] t] r] eqn:Ed; [congruence|].
        destruct (dstep H o mops (length ts) st (DNext i)) as [st1|] eqn:E1; [exact (ST _ _ E1)|]. exfalso. cbn [dstep] in E1. rewrite Ed in E1.
        rewrite (proj2 (Nat.ltb_lt _ _) Hi), (Q i ltac:(apply in_seq; lia)) in E1. cbn [andb] in E1. destruct (Nat.eqb f t); discriminate E1.
    + assert (NQ : ~ quiescent (length ts) (d_c st)). { intros Y. assert (forallb (fun i => idleb (th (d_c st) i)) (seq 0 (length ts)) = true); [|congruence]. apply forallb_forall. intros i Hi. apply in_seq in Hi. rewrite (Y i ltac:(lia)). reflexivity. }
      destruct (progress H (length ts) mops WF s c cl (d_c st) C HC CR NQ) as (i & c' & Cs). cbn [cstep] in Cs. destruct (i <? length ts)%nat eqn:Hi; [|discriminate Cs].
      destruct (dstep H o mops (length ts) st (DAdv i)) as [st1|] eqn:E1; [exact (ST _ _ E1)|]. exfalso. cbn [dstep] in E1. rewrite Hi, Cs in E1. destruct (match th (d_c st) i with Incd _ _ su => _ | _ => _ end). discriminate E1.
Qed.
End Done.
End Thms2.

(** Example: eight nodes in four blocks, a matching of two block pairs whose sequences share the hyperedge {1,2,4,6}. *)
From Verif Require Import WfCheck DetLPProps.
Definition xH : hypergraph := {| nodes := seq 0 8; edges := seq 0 5; pins := fun e => nth e [[0;1];[2;3];[1;2;4;6];[4;5];[6;7]]%nat [];
  inc := fun v => nth v [[0];[0;2];[1;2];[1];[2;3];[3];[2;4];[4]]%nat []; nw := fun _ => 1; ew := fun e => nth e [2;3;1;4;5] 0 |}.
Definition xP : partition := fun v => nth v [Some 0;Some 1;Some 0;Some 1;Some 2;Some 3;Some 2;Some 3]%nat None.
Definition xS : phg := state_of xH 4 xP.
Definition xT : list task := [mkT 0 1 [(1, 1, 0); (2, 0, 1)]; mkT 2 3 [(5, 3, 2); (6, 2, 3)]]%nat.
Lemma x_started : started xH xS.
Proof.
  apply state_of_started; [apply wf_hgb_sound; vm_compute; reflexivity| |].
  - intros v b. unfold xP. do 8 (destruct v as [|v]; [cbn; intros E; inversion E; lia|]). cbn. destruct v; discriminate.
  - intros v Hv. cbn in Hv. repeat (destruct Hv as [<-|Hv]; [cbn; eexists; split; [reflexivity|lia]|]). destruct Hv.
Qed.
Lemma x_valid : valid_matching xH 4 (part xS) xT.
Proof.
  split.
  - repeat apply Forall_cons; [| |apply Forall_nil]; (split; [cbn; lia|split; [cbn; lia|split; [cbn; repeat (apply NoDup_cons; [cbn; lia|]); apply NoDup_nil|]]]);
      intros u f t I; cbn in I; repeat (destruct I as [I|I]; [injection I as <- <- <-; cbn; repeat split; auto; lia|]); destruct I.
  - intros a b ta tb x Ea Eb Pa Pb. assert (La : (a < length xT)%nat) by (apply nth_error_Some; congruence). assert (Lb : (b < length xT)%nat) by (apply nth_error_Some; congruence). cbn [length xT] in La, Lb.
    destruct a as [|[|a]]; [| |lia]; (destruct b as [|[|b]]; [| |lia]); try reflexivity;
      cbn in Ea, Eb; injection Ea as <-; injection Eb as <-; unfold in_pair in Pa, Pb; cbn [t_i t_j] in Pa, Pb; apply orb_true_iff in Pa, Pb; destruct Pa as [Pa|Pa], Pb as [Pb|Pb]; apply Nat.eqb_eq in Pa, Pb; lia.
Qed.
Theorem C76_example : ready xH 4 xS /\ total_weight xH <= MAXW /\ valid_matching xH 4 (part xS) xT /\
  exists s' c' wm' imps new, apply_matching xH Okm1 km1_mops xS (mkCache (fun _ => 0) (fun _ _ => 0)) [] xT s' c' wm' imps new /\
    imps = [5; 8] /\ obj_spec Okm1 xH (part xS) = 16 /\ obj_spec Okm1 xH (part s') = 3 /\ map (part s') (seq 0 8) = [Some 0; Some 0; Some 1; Some 1; Some 2; Some 2; Some 3; Some 3]%nat.
Proof.
  assert (R : ready xH 4 xS) by (split; [exact x_started|reflexivity]).
  assert (Wn : forall v, In v (nodes xH) -> 0 <= nw xH v) by (intros; cbn; lia). assert (Wt : total_weight xH <= MAXW) by (vm_compute; discriminate).
  split; [exact R|]. split; [exact Wt|]. split; [exact x_valid|].
  set (c0 := mkCache (fun _ => 0) (fun _ _ => 0)).
  destruct (C76_completes xH 4 Okm1 km1_mops Wn Wt (km1_Hcost xH) xS c0 [] xT [] _ R x_valid eq_refl) as [_ (ls & st & Run & Dn)].
  assert (A : apply_matching xH Okm1 km1_mops xS c0 [] xT (sh (d_c st)) (gc (d_c st)) (d_wm st) (map (d_imp st) (seq 0 (length xT))) (d_new st)) by (exists ls, st; auto 10).
  destruct (C76_matching xH 4 Okm1 km1_mops Wn Wt _ _ _ _ _ _ _ _ _ R x_valid A) as (_ & A2 & A3 & A4 & A5 & _).
  exists (sh (d_c st)), (gc (d_c st)), (d_wm st), (map (d_imp st) (seq 0 (length xT))), (d_new st). split; [exact A|].
  assert (O0 : obj_spec Okm1 xH (part xS) = 16) by (vm_compute; reflexivity).
  assert (E : map (d_imp st) (seq 0 (length xT)) = [5; 8]) by (rewrite A4; vm_compute; reflexivity).
  split; [exact E|]. split; [exact O0|]. split; [rewrite A5, E, O0; reflexivity|].
  assert (N : forall v, mem v [1;2;5;6]%nat = false -> part (sh (d_c st)) v = part xS v).
  { intros v Nv. apply A3. intros t u f b It Iu ->. cbn in It. destruct It as [<-|[<-|[]]]; cbn in Iu; repeat (destruct Iu as [Iu|Iu]; [injection Iu as <- <- <-; discriminate Nv|]); destruct Iu. }
  cbn [seq map]. rewrite (N 0%nat), (N 3%nat), (N 4%nat), (N 7%nat) by reflexivity.
  rewrite (A2 (mkT 0 1 [(1, 1, 0); (2, 0, 1)])%nat 1%nat 1%nat 0%nat), (A2 (mkT 0 1 [(1, 1, 0); (2, 0, 1)])%nat 2%nat 0%nat 1%nat), (A2 (mkT 2 3 [(5, 3, 2); (6, 2, 3)])%nat 5%nat 3%nat 2%nat), (A2 (mkT 2 3 [(5, 3, 2); (6, 2, 3)])%nat 6%nat 2%nat 3%nat) by (cbn; auto).
  reflexivity.
Qed.
