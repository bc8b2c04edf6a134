(** QuotientProps.v - C78: theorems. *)
From Verif Require Import Base Spec SpecLemmas PHG PHGProofs GainCache Metrics PropsA Scan DetLP DetLPThms DetLPProps ParLoop FlowApply FlowApplyThms FlowApplyProps DetFlow DetFlowThms DetFlowProps Quotient.
From Verif Require Import GainCacheProofs.
From Verif Require Participation ParticipationProps WfCheck.

(** A hyperedge joins two blocks if it has a pin in both. *)
Definition joins (H : hypergraph) (P : partition) (e i j : nat) : Prop := 0 < pin_count H P e i /\ 0 < pin_count H P e j.
Definition joinsb (H : hypergraph) (P : partition) (i j e : nat) : bool := (0 <? pin_count H P e i) && (0 <? pin_count H P e j).
(** Every hyperedge that joins two blocks is listed for them; the weight is that of the listed hyperedges. *)
Definition lists_cut (H : hypergraph) (k : nat) (P : partition) (q : qst) : Prop :=
  (forall e i j, In e (edges H) -> (i < j < k)%nat -> joins H P e i j -> In e (hes q i j)) /\
  (forall i j, (i < j < k)%nat -> incl (hes q i j) (edges H) /\ hw q i j = sumZ (ew H) (hes q i j)).

(** What a list of steps adds to the edge {i, j}. *)
Definition pushes (i j : nat) (l : list qop) : list nat :=
  flat_map (fun op => match op with QPush a b e => if Nat.eqb a i && Nat.eqb b j then [e] else [] | _ => [] end) l.
Definition weights (i j : nat) (l : list qop) : Z :=
  sumZ (fun op => match op with QWeight a b w => if Nat.eqb a i && Nat.eqb b j then w else 0 | _ => 0 end) l.
Lemma upd2_spec {A} (f : nat -> nat -> A) i j x a b : upd2 f i j x a b = if Nat.eqb i a && Nat.eqb j b then x else f a b.
Proof. unfold upd2, upd. rewrite (Nat.eqb_sym i a), (Nat.eqb_sym j b). destruct (Nat.eqb_spec a i) as [->|]; cbn; destruct (Nat.eqb b j); reflexivity. Qed.
Lemma par_adds ls q q' : par qstep ls q q' -> forall i j,
  Permutation (hes q' i j) (hes q i j ++ flat_map (pushes i j) ls) /\ hw q' i j = hw q i j + sumZ (weights i j) ls.
Proof.
  induction 1 as [ls q F|a l b q l' q1 q' E P IH]; intros i j.
  - rewrite Forall_forall in F. assert (X : flat_map (pushes i j) ls = [] /\ sumZ (weights i j) ls = 0).
    { induction ls as [|l ls IH]; [split; reflexivity|]. destruct IH as [IH1 IH2]; [intros x Hx; apply F; right; exact Hx|]. cbn [flat_map sumZ]. rewrite IH1, IH2.
      specialize (F l (or_introl eq_refl)). destruct l; [split; reflexivity|discriminate F]. }
    destruct X as [-> ->]. rewrite app_nil_r. split; [reflexivity|lia].
  - destruct (IH i j) as [I1 I2]. destruct l as [|op r]; [discriminate E|]. injection E as <- <-. rewrite !flat_map_app, !sumZ_app in *. cbn [flat_map sumZ] in *.
    rewrite (Permutation_app_comm (flat_map (pushes i j) a)). rewrite (Permutation_app_comm (flat_map (pushes i j) a)) in I1. rewrite I1, I2. clear I1 I2 IH.
    destruct op as [x y e|x y w]; cbn [qexec hes hw pushes weights flat_map sumZ].
    + rewrite upd2_spec. destruct (Nat.eqb_spec x i) as [->|]; cbn [andb]; [destruct (Nat.eqb_spec y j) as [->|]|]; cbn [app]; fold (pushes i j r); fold (weights i j r); split; try lia; try reflexivity.
      rewrite <- !app_assoc. reflexivity.
    + rewrite upd2_spec. fold (pushes i j r); fold (weights i j r). split; [reflexivity|]. destruct (Nat.eqb_spec x i) as [->|]; cbn [andb]; [destruct (Nat.eqb_spec y j) as [->|]|]; lia.
Qed.
(** A sequential schedule exists: the loops can be executed. *)
Lemma par_all ls : forall q, exists q', par qstep ls q q'.
Proof.
  assert (X : forall n ls q, (length (concat ls) <= n)%nat -> exists q', par qstep ls q q').
  { induction n as [|n IH]; intros l q Hn.
    - exists q. constructor. apply Forall_forall. intros x Hx. destruct x as [|op r]; [reflexivity|]. exfalso. apply in_split in Hx. destruct Hx as (a & b & ->). rewrite concat_app, app_length in Hn. cbn in Hn. lia.
    - destruct (Forall_dec (fun l => l = @nil qop) ltac:(intros [|op r]; [left; reflexivity|right; discriminate]) l) as [F|N].
      + exists q. constructor. eapply Forall_impl; [|exact F]. intros x ->. reflexivity.
      + apply neg_Forall_Exists_neg in N; [|intros [|op r]; [left; reflexivity|right; discriminate]]. apply Exists_exists in N. destruct N as (x & Hx & Nx). destruct x as [|op r]; [congruence|].
        apply in_split in Hx. destruct Hx as (a & b & ->). destruct (IH (a ++ r :: b) (qexec op q)) as [q' P]; [rewrite concat_app, app_length in *; cbn [concat] in *; rewrite app_length in *; cbn [length] in *; lia|].
        exists q'. eapply par_step; [|exact P]. reflexivity. }
  intros q. apply (X (length (concat ls)) ls q). lia.
Qed.
Lemma pushes_app i j a b : pushes i j (a ++ b) = pushes i j a ++ pushes i j b.
Proof. apply flat_map_app. Qed.
Lemma pushes_flat {A} i j (f : A -> list qop) l : pushes i j (flat_map f l) = flat_map (fun x => pushes i j (f x)) l.
Proof. induction l as [|a l IH]; [reflexivity|]. cbn [flat_map]. rewrite pushes_app, IH. reflexivity. Qed.
Lemma weights_app i j a b : weights i j (a ++ b) = weights i j a + weights i j b.
Proof. apply sumZ_app. Qed.
Lemma flat_single {A} (f : nat -> list A) x l : NoDup l -> (forall y, y <> x -> f y = []) -> flat_map f l = if mem x l then f x else [].
Proof.
  intros N F. induction l as [|a l IH]; [reflexivity|]. inversion N as [|? ? Na N']; subst. cbn [flat_map mem existsb]. rewrite (IH N'). change (existsb (Nat.eqb x) l) with (mem x l).
  destruct (Nat.eqb_spec x a) as [->|Ne]; cbn [orb].
  - destruct (mem a l) eqn:M; [apply mem_In in M; contradiction|]. apply app_nil_r.
  - rewrite (F a) by congruence. reflexivity.
Qed.
Lemma flat_if {A} (p : A -> bool) (l : list A) : flat_map (fun x => if p x then [x] else []) l = filter p l.
Proof. induction l as [|a l IH]; [reflexivity|]. cbn [flat_map filter]. rewrite IH. destruct (p a); reflexivity. Qed.

Section Thms.
Variables (H : hypergraph) (k : nat).
Local Notation rd := (ready H k).

Lemma pushes_add i j a b e : pushes i j (add_ops H a b e) = if Nat.eqb a i && Nat.eqb b j then [e] else [].
Proof. unfold add_ops, pushes. cbn [flat_map]. destruct (_ && _); reflexivity. Qed.
Lemma weights_add i j a b e : weights i j (add_ops H a b e) = if Nat.eqb a i && Nat.eqb b j then ew H e else 0.
Proof. unfold add_ops, weights. cbn [sumZ]. destruct (_ && _); lia. Qed.
(** The steps of a loop add as much weight as they push hyperedges. *)
Definition matched (i j : nat) (l : list qop) : Prop := weights i j l = sumZ (ew H) (pushes i j l).
Lemma matched_flat {A} i j (f : A -> list qop) l : (forall x, In x l -> matched i j (f x)) -> matched i j (flat_map f l).
Proof.
  unfold matched. induction l as [|a l IH]; intros M; [reflexivity|]. cbn [flat_map]. rewrite weights_app, pushes_app, sumZ_app, IH, (M a); [reflexivity|left; reflexivity|intros x Hx; apply M; right; exact Hx].
Qed.
Lemma matched_add i j a b e : matched i j (add_ops H a b e).
Proof. unfold matched. rewrite weights_add, pushes_add. destruct (_ && _); cbn [sumZ]; lia. Qed.
Lemma matched_nil i j : matched i j [].
Proof. reflexivity. Qed.
Lemma matched_init i j s e : matched i j (init_ops H s e).
Proof. unfold init_ops. apply matched_flat. intros a _. apply matched_flat. intros b _. destruct (a <? b)%nat; [apply matched_add|apply matched_nil]. Qed.
Lemma matched_new i j s x : matched i j (new_ops H s x).
Proof. unfold new_ops. apply matched_flat. intros a _. destruct (Nat.eqb a (snd x)); [apply matched_nil|apply matched_add]. Qed.
Lemma matched_all i j ls : (forall l, In l ls -> matched i j l) -> sumZ (weights i j) ls = sumZ (ew H) (flat_map (pushes i j) ls).
Proof. induction ls as [|a ls IH]; intros M; [reflexivity|]. cbn [flat_map sumZ]. rewrite sumZ_app, IH, (M a); [reflexivity|left; reflexivity|intros x Hx; apply M; right; exact Hx]. Qed.

Lemma in_cset s e b : rd s -> In e (edges H) -> (In b (connectivitySet s e) <-> (b < k)%nat /\ 0 < pin_count H (part s) e b).
Proof.
  intros [(_ & C & _) K] He. unfold connectivitySet. rewrite filter_In, in_seq, K. split.
  - intros [X Y]. split; [lia|]. rewrite (c_cs H s C), (c_pc H s C) in Y by (auto; lia). apply Z.ltb_lt. exact Y.
  - intros [X Y]. split; [lia|]. rewrite (c_cs H s C), (c_pc H s C) by (auto; lia). apply Z.ltb_lt. exact Y.
Qed.
Lemma nodup_cset s e : NoDup (connectivitySet s e).
Proof. apply NoDup_filter, seq_NoDup. Qed.
Lemma pushes_init s e i j : rd s -> In e (edges H) -> (i < j < k)%nat -> pushes i j (init_ops H s e) = if joinsb H (part s) i j e then [e] else [].
Proof.
  intros R He Hij. unfold init_ops. rewrite pushes_flat. rewrite (flat_single _ i); [|apply nodup_cset|].
  - rewrite pushes_flat. rewrite (flat_single _ j); [|apply nodup_cset|].
    + destruct (Nat.ltb_spec i j); [|lia]. rewrite pushes_add, !Nat.eqb_refl. cbn [andb]. unfold joinsb.
      assert (X : forall b, (b < k)%nat -> mem b (connectivitySet s e) = (0 <? pin_count H (part s) e b)).
      { intros b Hb. apply eq_true_iff_eq. rewrite mem_In, (in_cset s e b R He), Z.ltb_lt. tauto. }
      rewrite !X by lia. destruct (0 <? pin_count H (part s) e i), (0 <? pin_count H (part s) e j); reflexivity.
    + intros y Hy. destruct (i <? y)%nat; [|reflexivity]. rewrite pushes_add. destruct (Nat.eqb_spec y j); [contradiction|]. rewrite andb_false_r. reflexivity.
  - intros y Hy. rewrite pushes_flat. induction (connectivitySet s e) as [|a l IH]; [reflexivity|]. cbn [flat_map]. rewrite IH. destruct (y <? a)%nat; [|reflexivity]. rewrite pushes_add. destruct (Nat.eqb_spec y i); [contradiction|reflexivity].
Qed.

(** C78: after initialize every pair of blocks lists exactly the hyperedges that join the two blocks, each once, and the weight is
    the sum of their weights - for every schedule of the parallel loop. *)
Theorem C78_initialize s q : rd s -> initialize H s q -> forall i j, (i < j < k)%nat ->
  Permutation (hes q i j) (filter (joinsb H (part s) i j) (edges H)) /\ hw q i j = sumZ (ew H) (filter (joinsb H (part s) i j) (edges H)).
Proof.
  intros R I i j Hij. destruct (par_adds _ _ _ I i j) as [A B]. cbn [qreset hes hw app] in A, B.
  assert (E : flat_map (pushes i j) (map (init_ops H s) (edges H)) = filter (joinsb H (part s) i j) (edges H)).
  { rewrite <- flat_if. assert (X : forall l, incl l (edges H) -> flat_map (pushes i j) (map (init_ops H s) l) = flat_map (fun x => if joinsb H (part s) i j x then [x] else []) l).
    { induction l as [|e l IH]; intros IC; [reflexivity|]. cbn [map flat_map]. rewrite IH, pushes_init; auto; [apply IC; left; reflexivity|intros x Hx; apply IC; right; exact Hx]. }
    apply X. apply incl_refl. }
  rewrite E in A. split; [exact A|]. rewrite B, matched_all, E; [lia|]. intros l Hl. apply in_map_iff in Hl. destruct Hl as (e & <- & _). apply matched_init.
Qed.
Theorem C78_initialize_lists s q : rd s -> initialize H s q -> lists_cut H k (part s) q.
Proof.
  intros R I. split.
  - intros e i j He Hij [J1 J2]. destruct (C78_initialize s q R I i j Hij) as [A _]. apply (Permutation_in _ (Permutation_sym A)). apply filter_In. split; [exact He|]. unfold joinsb. apply andb_true_iff. rewrite !Z.ltb_lt. auto.
  - intros i j Hij. destruct (C78_initialize s q R I i j Hij) as [A B]. split.
    + intros e X. apply (Permutation_in _ A) in X. apply filter_In in X. apply X.
    + rewrite B. apply sumZ_perm. apply Permutation_sym. exact A.
Qed.

Lemma joins_ij P e i j : joins H P e i j -> joins H P e (Nat.min i j) (Nat.max i j).
Proof. intros [A B]. destruct (Nat.le_gt_cases i j) as [L|L]; [rewrite Nat.min_l, Nat.max_r by lia|rewrite Nat.min_r, Nat.max_l by lia]; split; assumption. Qed.
Lemma add_keeps s0 s new q q' : rd s -> lists_cut H k (part s0) q -> (forall e b, In (e, b) new -> In e (edges H) /\ (b < k)%nat) ->
  (forall e b, In e (edges H) -> (b < k)%nat -> pin_count H (part s0) e b = 0 -> 0 < pin_count H (part s) e b -> In (e, b) new) ->
  (forall e b, 0 <= pin_count H (part s0) e b) ->
  addNewCutHyperedges H s new q q' -> lists_cut H k (part s) q'.
Proof.
  intros R [L1 L2] Sd Cv Nn A. split.
  - intros e i j He Hij [J1 J2]. destruct (par_adds _ _ _ A i j) as [Pm _]. apply (Permutation_in _ (Permutation_sym Pm)). apply in_or_app.
    assert (New : forall b ob, In (e, b) new -> In ob (connectivitySet s e) -> ob <> b -> Nat.min b ob = i -> Nat.max b ob = j -> In e (flat_map (pushes i j) (map (new_ops H s) new))).
    { intros b ob I1 I2 Nb E1 E2. apply in_flat_map. exists (new_ops H s (e, b)). split; [apply in_map; exact I1|]. unfold new_ops. rewrite pushes_flat. apply in_flat_map. exists ob. split; [exact I2|].
      cbn [fst snd]. destruct (Nat.eqb_spec ob b); [contradiction|]. rewrite pushes_add, E1, E2, !Nat.eqb_refl. left. reflexivity. }
    assert (Ci : In i (connectivitySet s e)) by (apply (in_cset s e i R He); split; [lia|exact J1]). assert (Cj : In j (connectivitySet s e)) by (apply (in_cset s e j R He); split; [lia|exact J2]).
    pose proof (Nn e i) as Ni. pose proof (Nn e j) as Nj.
    destruct (Z_lt_le_dec 0 (pin_count H (part s0) e i)) as [Pi|Pi]; [destruct (Z_lt_le_dec 0 (pin_count H (part s0) e j)) as [Pj|Pj]|].
    + left. apply L1; auto. split; assumption.
    + right. apply (New j i); [apply Cv; auto; lia|exact Ci|lia|lia|lia].
    + right. apply (New i j); [apply Cv; auto; lia|exact Cj|lia|lia|lia].
  - intros i j Hij. destruct (L2 i j Hij) as [L3 L4]. destruct (par_adds _ _ _ A i j) as [Pm W]. split.
    + intros e X. apply (Permutation_in _ Pm) in X. apply in_app_or in X. destruct X as [X|X]; [apply L3; exact X|]. apply in_flat_map in X. destruct X as (l & Hl & X). apply in_map_iff in Hl. destruct Hl as ([e' b] & <- & Hn).
      unfold new_ops in X. rewrite pushes_flat in X. apply in_flat_map in X. destruct X as (ob & _ & X). cbn [fst snd] in X. destruct (Nat.eqb ob b); [destruct X|]. rewrite pushes_add in X. destruct (_ && _); [|destruct X]. destruct X as [<-|[]]. apply (Sd e' b Hn).
    + rewrite W, L4, matched_all; [|intros l Hl; apply in_map_iff in Hl; destruct Hl as (x & <- & _); apply matched_new]. rewrite <- sumZ_app. apply sumZ_perm. apply Permutation_sym. exact Pm.
Qed.
Lemma pc_nonneg P e b : 0 <= pin_count H P e b.
Proof. unfold pin_count. lia. Qed.

Lemma slog_edge l : wf_hg H -> forall P su, (forall u f t, In (u, f, t) l -> In u (nodes H)) -> In su (slog H P l) -> In (su_he su) (edges H).
Proof.
  intros WF. induction l as [|[[u f] t] l IH]; intros P su V X; cbn [slog] in X; [destruct X|]. apply in_app_or in X. destruct X as [X|X].
  - destruct (Nat.eqb f t); [destruct X|]. unfold sus_of in X. apply in_map_iff in X. destruct X as (e & <- & He). cbn. apply (wf_inc H WF u e (V u f t (or_introl eq_refl))) in He. apply He.
  - apply (IH _ _ ltac:(intros a b c I; apply (V a b c); right; exact I) X).
Qed.
(** C78: consequently two blocks joined by a hyperedge of positive weight are scheduled: on the input hypergraph the first round of
    deterministic flow refinement handles all of them (C77_round). *)
Theorem C78_adjacent_blocks_scheduled P q nm tot ssc sub act rnd e i j : lists_cut H k P q -> (forall e, In e (edges H) -> 0 <= ew H e) ->
  In e (edges H) -> (i < j < k)%nat -> joins H P e i j -> 0 < ew H e -> act i = true \/ act j = true -> rnd = O ->
  ParticipationProps.active_pair k ssc sub true (Participation.mkQ (hw q) nm tot) act rnd i j /\ ew H e <= hw q i j.
Proof.
  intros [L1 L2] We He Hij J Pos Ac ->. destruct (L2 i j Hij) as [IC W].
  assert (B : ew H e <= hw q i j).
  { rewrite W. specialize (L1 e i j He Hij J). apply in_split in L1. destruct L1 as (a & b & E). rewrite E in IC |- *. rewrite sumZ_app. cbn [sumZ].
    assert (0 <= sumZ (ew H) a) by (apply sumZ_nonneg; intros x Hx; apply We, IC, in_or_app; left; exact Hx).
    assert (0 <= sumZ (ew H) b) by (apply sumZ_nonneg; intros x Hx; apply We, IC, in_or_app; right; right; exact Hx). lia. }
  split; [|exact B]. unfold ParticipationProps.active_pair. cbn [Participation.q_w Participation.q_n]. rewrite andb_false_r. split; [exact Hij|]. split; [exact Ac|]. split; [lia|]. intros _ X. congruence.
Qed.
Hypothesis Wn : forall v, In v (nodes H) -> 0 <= nw H v.
Hypothesis Wt : total_weight H <= MAXW.
Lemma new_sound o mops s c wm ts s' c' wm' imps new e b : rd s -> valid_matching H k (part s) ts -> apply_matching H o mops s c wm ts s' c' wm' imps new ->
  In (e, b) new -> In e (edges H) /\ (b < k)%nat.
Proof.
  intros R VM A I. destruct (apply_matching_ok H k o mops Wn Wt _ _ _ _ _ _ _ _ _ R VM A) as (_ & _ & _ & _ & _ & _ & _ & A8 & A9).
  destruct (A9 _ I) as (t & It & Hp). cbn [snd] in Hp. destruct VM as [F _]. rewrite Forall_forall in F. destruct (F t It) as (V1 & V2 & _ & V4). split.
  - assert (X : In (e, b) (filter (fun x => in_pair t (snd x)) new)) by (apply filter_In; split; assumption). rewrite (A8 t It) in X. unfold task_new in X. apply in_map_iff in X. destruct X as (su & E & X). apply filter_In in X. injection E as <- _.
    destruct R as [(WF & _) _]. apply (slog_edge (t_mv t) WF (part s)); [intros u f x Hx; apply (V4 u f x Hx)|apply X].
  - unfold in_pair in Hp. apply orb_true_iff in Hp. rewrite !Nat.eqb_eq in Hp. lia.
Qed.

(** C78: deterministic flow refinement never loses a cut hyperedge: after every matching, for every schedule of the moves and of the
    additions, every hyperedge that joins two blocks is listed for them. *)
Theorem C78_deterministic o mops s q s' q' : rd s -> lists_cut H k (part s) q -> det_run H k o mops (valid_matching H k) s q s' q' -> rd s' /\ lists_cut H k (part s') q'.
Proof.
  intros R L D. revert R L. induction D as [s q|s q c wm ts s1 c1 wm1 imps new q1 s2 q2 V A Ad D IH]; intros R L; [split; assumption|].
  destruct (apply_matching_ok H k o mops Wn Wt _ _ _ _ _ _ _ _ _ R V A) as (R1 & _). apply IH; [exact R1|].
  apply (add_keeps s s1 new q q1 R1 L); [intros e b; apply (new_sound o mops s c wm ts s1 c1 wm1 imps new e b R V A)| |intros e b; apply pc_nonneg|exact Ad].
  intros e b He _ Z0 Pos. apply (C76_new_blocks H k o mops Wn Wt s c wm ts s1 c1 wm1 imps new e b R V A He Z0 Pos).
Qed.

(** C78: nor does flow refinement if the new cut hyperedges of a sequence are added before the next sequence is applied. *)
Theorem C78_flow o gcu G st q l st' q' : finv H k st -> Forall (valid_seq H k) l -> lists_cut H k (part (f_s st)) q -> flow_run H k o gcu G st q l st' q' ->
  lists_cut H k (part (f_s st')) q'.
Proof.
  intros I V L F. revert I V L. induction F as [st q|st q sq st1 imp stt nch q1 r st2 q2 E Ad F IH]; intros I V L; [exact L|]. inversion V as [|? ? V1 V2]; subst.
  destruct (applyMoves_ok H k o gcu G Wn Wt st sq I V1) as (st1' & imp' & stt' & nch' & E' & I1 & _ & O & _). rewrite E in E'. injection E' as <- <- <- <-.
  apply IH; [exact I1|exact V2|]. clear IH F. destruct O as [(-> & _ & C & _)|[(-> & _ & _ & D & _)|(-> & _ & _ & D & _ & SN & CV)]].
  - subst q1. rewrite C. exact L.
  - subst q1. rewrite D. exact L.
  - apply (add_keeps (f_s st) (f_s st1) (blocks_known nch) q q1 (fi_rd _ _ _ I1) L); [| |intros e b; apply pc_nonneg|exact Ad].
    + intros e b X. unfold blocks_known in X. apply in_flat_map in X. destruct X as ([e' ob] & X & Y). unfold sound in SN. rewrite Forall_forall in SN. destruct (SN _ X) as (S1 & b' & S2 & S3). cbn [fst snd] in *. subst ob. destruct Y as [Y|[]]. injection Y as <- <-. auto.
    + intros e b He Hb Z0 Pos. rewrite D in Pos. pose proof (CV e b He Z0 Pos) as X. unfold blocks_known. apply in_flat_map. exists (e, Some b). split; [exact X|left; reflexivity].
Qed.

End Thms.

(** Without this order of the additions a cut hyperedge can get lost (the comment at :74-79 only expects superfluous ones): search A moves
    node 2 to block 2, so that hyperedge 0 = {0,1,2} joins the blocks 0, 1, 2, and releases the lock; search B applies a sequence
    that moves node 0 to block 1; now A reads the connectivity set {1, 2} of hyperedge 0; then B finds that the objective got worse
    and undoes its sequence.  Hyperedge 0 joins the blocks 0 and 2, but is not listed for them. *)
Definition zH : hypergraph := {| nodes := seq 0 5; edges := seq 0 3; pins := fun e => nth e [[0;1;2];[2;3];[0;4]]%nat [];
  inc := fun v => nth v [[0;2];[0];[0;1];[1];[2]]%nat []; nw := fun _ => 1; ew := fun e => nth e [1;5;5] 0 |}.
Definition zP : partition := fun v => nth v [Some 0;Some 1;Some 1;Some 2;Some 0]%nat None.
Definition zS : phg := state_of zH 3 zP.
Definition z0 : fst_ := FlowApply.initialize (fun _ => 5) zS (mkCache (fun _ => 0) (fun _ _ => 0)) [].
Lemma z_started : started zH zS.
Proof.
  apply state_of_started; [apply WfCheck.wf_hgb_sound; vm_compute; reflexivity| |].
  - intros v b. unfold zP. do 5 (destruct v as [|v]; [cbn; intros E; inversion E; lia|]). cbn. destruct v; discriminate.
  - intros v Hv. cbn in Hv. repeat (destruct Hv as [<-|Hv]; [cbn; eexists; split; [reflexivity|lia]|]). destruct Hv.
Qed.
Local Notation zA := (applyMoves zH 3 Okm1 false km1_policy z0 [(2, 2)]%nat).
Definition z1 : fst_ := match zA with Some (st, _, _, _) => st | None => z0 end.
Local Notation zB := (applyMoves zH 3 Okm1 false km1_policy z1 [(0, 1)]%nat).
Definition z2 : fst_ := match zB with Some (st, _, _, _) => st | None => z0 end.
(** The sequence of search B and the state after it has been applied. *)
Local Notation zl := (set_from (f_s z1) [(0, 1)]%nat).
Definition zmid := match zl with Some l => applyMoveSequence zH Okm1 false km1_policy (mkA (f_s z1) (f_c z1) 0 [] (f_wm z1)) l | None => None end.
Theorem C78_refuted_late_addition : ready zH 3 zS /\ exists st1 imp nch l x st2 imp2 nch2,
  applyMoves zH 3 Okm1 false km1_policy z0 [(2, 2)]%nat = Some (st1, imp, SUCCESS, nch) /\
  set_from (f_s st1) [(0, 1)]%nat = Some l /\ applyMoveSequence zH Okm1 false km1_policy (mkA (f_s st1) (f_c st1) 0 [] (f_wm st1)) l = Some x /\
  applyMoves zH 3 Okm1 false km1_policy st1 [(0, 1)]%nat = Some (st2, imp2, WORSEN_SOLUTION_QUALITY, nch2) /\
  (exists q q', initialize zH zS q /\ addNewCutHyperedges zH (a_s x) (blocks_known nch) q q') /\
  (forall q q', initialize zH zS q -> addNewCutHyperedges zH (a_s x) (blocks_known nch) q q' ->
     In 0%nat (edges zH) /\ joins zH (part (f_s st2)) 0 0 2 /\ ~ In 0%nat (hes q' 0 2)).
Proof.
  assert (R : ready zH 3 zS) by (split; [exact z_started|reflexivity]). split; [exact R|].
  assert (T1 : match zA with Some (_, _, SUCCESS, nch) => blocks_known nch = [(0, 2)]%nat | _ => False end) by (vm_compute; reflexivity).
  assert (T2 : match zmid with Some x => connectivitySet (a_s x) 0 = [1; 2]%nat | None => False end) by (vm_compute; reflexivity).
  assert (T3 : match zB with Some (st, _, WORSEN_SOLUTION_QUALITY, _) => joinsb zH (part (f_s st)) 0 2 0 = true | _ => False end) by (vm_compute; reflexivity).
  assert (E1 : exists imp nch, zA = Some (z1, imp, SUCCESS, nch) /\ blocks_known nch = [(0, 2)]%nat).
  { unfold z1. destruct zA as [[[[st1 imp] stt] nch]|]; [|destruct T1]. destruct stt; try (exfalso; exact T1). exists imp, nch. split; [reflexivity|exact T1]. }
  destruct E1 as (imp & nch & E1 & F2).
  assert (E2 : exists l x, zl = Some l /\ applyMoveSequence zH Okm1 false km1_policy (mkA (f_s z1) (f_c z1) 0 [] (f_wm z1)) l = Some x /\ connectivitySet (a_s x) 0 = [1; 2]%nat).
  { unfold zmid in T2. destruct zl as [l|]; [|destruct T2]. exists l. destruct (applyMoveSequence _ _ _ _ _ l) as [x|]; [|destruct T2]. exists x. split; [reflexivity|]. split; [reflexivity|exact T2]. }
  destruct E2 as (l & x & E2 & E3 & F6).
  assert (E4 : exists imp2 nch2, zB = Some (z2, imp2, WORSEN_SOLUTION_QUALITY, nch2) /\ joinsb zH (part (f_s z2)) 0 2 0 = true).
  { unfold z2. destruct zB as [[[[st2 imp2] stt] nch2]|]; [|destruct T3]. destruct stt; try (exfalso; exact T3). exists imp2, nch2. split; [reflexivity|exact T3]. }
  destruct E4 as (imp2 & nch2 & E4 & F5). clear T1 T2 T3.
  exists z1, imp, nch, l, x, z2, imp2, nch2. split; [exact E1|]. split; [exact E2|]. split; [exact E3|]. split; [exact E4|]. split.
  - destruct (par_all (map (init_ops zH zS) (edges zH)) qreset) as [q Q]. destruct (par_all (map (new_ops zH (a_s x)) (blocks_known nch)) q) as [q' Q']. exists q, q'. split; assumption.
  - intros q q' I A. split; [left; reflexivity|]. split; [unfold joinsb in F5; apply andb_true_iff in F5; rewrite !Z.ltb_lt in F5; exact F5|].
    intros X. destruct (par_adds _ _ _ A 0 2) as [Pm _]. apply (Permutation_in _ Pm) in X. destruct (C78_initialize zH 3 zS q R I 0 2 ltac:(lia)) as [Pi _].
    apply in_app_or in X. destruct X as [X|X].
    + apply (Permutation_in _ Pi) in X. revert X. vm_compute. tauto.
    + rewrite F2 in X. cbn [map flat_map] in X. unfold new_ops in X. cbn [fst snd] in X. rewrite F6 in X. cbn in X. tauto.
Qed.

(** Example: the quotient graph of the partition zP. *)
Theorem C78_example : ready zH 3 zS /\ total_weight zH <= MAXW /\ exists q, initialize zH zS q /\ hes q 0 1 = [0]%nat /\ hes q 1 2 = [1]%nat /\ hes q 0 2 = [] /\ hw q 1 2 = 5.
Proof.
  assert (R : ready zH 3 zS) by (split; [exact z_started|reflexivity]). split; [exact R|]. split; [vm_compute; discriminate|].
  destruct (par_all (map (init_ops zH zS) (edges zH)) qreset) as [q Q]. exists q. split; [exact Q|].
  assert (S1 : forall (a : nat) l, Permutation l [a] -> l = [a]) by (intros a l X; apply Permutation_length_1_inv, Permutation_sym, X).
  split; [apply S1; apply (proj1 (C78_initialize zH 3 zS q R Q 0 1 ltac:(lia)))|]. split; [apply S1; apply (proj1 (C78_initialize zH 3 zS q R Q 1 2 ltac:(lia)))|].
  split; [apply Permutation_nil, Permutation_sym; apply (proj1 (C78_initialize zH 3 zS q R Q 0 2 ltac:(lia)))|]. rewrite (proj2 (C78_initialize zH 3 zS q R Q 1 2 ltac:(lia))). vm_compute. reflexivity.
Qed.
