(** DetLPRun.v - deterministic label propagation: the active nodes and the whole refinement. *)
From Coq Require Import FunctionalExtensionality.
From Verif Require Import Base Spec SpecLemmas PHG PHGProofs Fixed Conc ConcProofs Objective GainCache Metrics PropsA Scan Revert ParLoop DetCoarseThms Prefixes DetLP DetLPApply DetLP1 DetLP2 DetLPThms.

Section Activate.
Variables (H : hypergraph) (thr : nat).
(** The hyperedges whose pins the moves [ms] activate. *)
Definition tgt (ms : list lmv) (e : nat) : Prop := (length (pins H e) <= thr)%nat /\ exists m, In m ms /\ In e (inc H (ln m)).
Definition closed (a : act) : Prop := forall e, em a e = true -> forall v, In v (pins H e) -> vm a v = true.
Definition edges_of (l : apc) : list nat := match l with AEdge es => es | AStore e es => e :: es | APins _ es => es | ACas _ _ es => es end.
Definition pins_of (l : apc) : list nat := match l with AEdge _ => [] | AStore _ _ => [] | APins vs _ => vs | ACas v vs _ => v :: vs end.
Record ainv (ms : list lmv) (a0 : act) (ls : list apc) (a : act) : Prop := {
  i_em : forall e, em a e = true -> em a0 e = true \/ tgt ms e;
  i_vm : forall v, vm a v = true -> vm a0 v = true \/ exists e, tgt ms e /\ In v (pins H e);
  i_em0 : forall e, em a0 e = true -> em a e = true;
  i_vm0 : forall v, vm a0 v = true -> vm a v = true;
  i_q : forall v, aq a v = (aq a0 v + (if vm a v && negb (vm a0 v) then 1 else 0))%nat;
  i_tgt : forall e, tgt ms e -> em a e = true \/ exists l, In l ls /\ In e (edges_of l);
  i_pins : forall e, em a e = true -> forall v, In v (pins H e) -> vm a v = true \/ exists l, In l ls /\ In v (pins_of l);
  i_le : forall l e, In l ls -> In e (edges_of l) -> exists m, In m ms /\ In e (inc H (ln m));
  i_lp : forall l v, In l ls -> In v (pins_of l) -> exists e, tgt ms e /\ In v (pins H e);
  i_st : forall e es, In (AStore e es) ls -> (length (pins H e) <= thr)%nat
}.
Lemma in_mid {A} (x l : A) a b : In x (a ++ l :: b) <-> x = l \/ In x (a ++ b).
Proof. rewrite !in_app_iff. cbn. intuition congruence. Qed.
Ltac fin := intros x; intros; repeat match goal with
  | X : In _ [] |- _ => destruct X
  | X : In _ (_ :: _) |- _ => destruct X as [X|X]; [subst|]
  | X : AStore _ _ = AStore _ _ |- _ => inversion X; subst; clear X
  | X : tgt _ _ |- _ => let Y := fresh in pose proof X as Y; destruct Y as [? _]; revert X
  | X : context [upd _ ?e _ ?x] |- _ => unfold upd in X; destruct (Nat.eqb_spec x e); subst
  end; intros; try lia; try discriminate; auto; try (left; apply upd_same); try (unfold upd; destruct (Nat.eqb _ _); auto; fail);
  try (right; assumption); try (match goal with KP : forall x, In x (pins_of _) -> _ |- _ => apply KP; cbn [pins_of]; right; assumption end); try (eexists; split; eassumption).
Ltac mids := repeat match goal with X : In _ (_ ++ _ :: _) |- _ => rewrite in_mid in X end.
Lemma astep_inv ms a0 a l b s l' s' : ainv ms a0 (a ++ l :: b) s -> astep H thr l s = Some (l', s') -> ainv ms a0 (a ++ l' :: b) s'.
Proof.
  intros [I1 I2 I3 I4 I5 I6 I7 I8 I9 I10] E.
  assert (KE : forall x, In x (edges_of l) -> exists m, In m ms /\ In x (inc H (ln m))) by (intros x; apply (I8 l); apply in_mid; auto).
  assert (KP : forall x, In x (pins_of l) -> exists e, tgt ms e /\ In x (pins H e)) by (intros x; apply (I9 l); apply in_mid; auto).
  assert (OE : forall x e, In x (a ++ b) -> In e (edges_of x) -> exists m, In m ms /\ In e (inc H (ln m))) by (intros x e Hx; apply I8; apply in_mid; auto).
  assert (OP : forall x v, In x (a ++ b) -> In v (pins_of x) -> exists e, tgt ms e /\ In v (pins H e)) by (intros x v Hx; apply I9; apply in_mid; auto).
  assert (OS : forall e es, In (AStore e es) (a ++ b) -> (length (pins H e) <= thr)%nat) by (intros e es Hx; apply (I10 e es); apply in_mid; auto).
  assert (SE : forall e, tgt ms e -> em s e = true \/ In e (edges_of l) \/ exists x, In x (a ++ b) /\ In e (edges_of x)).
  { intros e He. destruct (I6 e He) as [X|(x & Hx & Y)]; [auto|]. apply in_mid in Hx. destruct Hx as [->|Hx]; [auto|]. right. right. exists x. auto. }
  assert (SP : forall e, em s e = true -> forall v, In v (pins H e) -> vm s v = true \/ In v (pins_of l) \/ exists x, In x (a ++ b) /\ In v (pins_of x)).
  { intros e He v Hv. destruct (I7 e He v Hv) as [X|(x & Hx & Y)]; [auto|]. apply in_mid in Hx. destruct Hx as [->|Hx]; [auto|]. right. right. exists x. auto. }
  assert (G : forall l1 s1, (forall e, em s1 e = true -> em a0 e = true \/ tgt ms e) -> (forall v, vm s1 v = true -> vm a0 v = true \/ exists e, tgt ms e /\ In v (pins H e)) ->
     (forall e, em s e = true -> em s1 e = true) -> (forall v, vm s v = true -> vm s1 v = true) ->
     (forall v, aq s1 v = (aq a0 v + (if vm s1 v && negb (vm a0 v) then 1 else 0))%nat) ->
     (forall e, tgt ms e -> In e (edges_of l) -> em s1 e = true \/ In e (edges_of l1)) ->
     (forall v, In v (pins_of l) -> vm s1 v = true \/ In v (pins_of l1)) ->
     (forall e, em s1 e = true -> em s e = true \/ forall v, In v (pins H e) -> In v (pins_of l1)) ->
     (forall x, In x (edges_of l1) -> In x (edges_of l)) ->
     (forall x, In x (pins_of l1) -> exists e, tgt ms e /\ In x (pins H e)) ->
     (forall e es, l1 = AStore e es -> (length (pins H e) <= thr)%nat) -> ainv ms a0 (a ++ l1 :: b) s1).
  { intros l1 s1 G1 G2 G3 G4 G5 G6 G7 G8 G9 G10 G11. constructor; auto.
    - intros e He. destruct (SE e He) as [X|[X|(x & Hx & Y)]].
      + left. auto.
      + destruct (G6 e He X) as [Y|Y]; [auto|]. right. exists l1. split; [apply in_mid; auto|exact Y].
      + right. exists x. split; [apply in_mid; auto|exact Y].
    - intros e He v Hv. destruct (G8 e He) as [X|X]; [|right; exists l1; split; [apply in_mid; auto|apply X; exact Hv]].
      destruct (SP e X v Hv) as [Y|[Y|(x & Hx & Y)]]; [auto| |right; exists x; split; [apply in_mid; auto|exact Y]].
      destruct (G7 v Y) as [Z|Z]; [auto|]. right. exists l1. split; [apply in_mid; auto|exact Z].
    - intros x e Hx He. apply in_mid in Hx. destruct Hx as [->|Hx]; [apply KE, G9, He|apply (OE x e Hx He)].
    - intros x v Hx Hv. apply in_mid in Hx. destruct Hx as [->|Hx]; [apply G10, Hv|apply (OP x v Hx Hv)].
    - intros e es Hx. apply in_mid in Hx. destruct Hx as [Hx|Hx]; [apply (G11 e es); congruence|apply (OS e es Hx)]. }
  destruct l as [[|e es]|e es|[|v vs] es|v vs es]; cbn [astep] in E; [discriminate| | | | |]; inversion E; subst; clear E.
  - destruct (Nat.leb_spec (length (pins H e)) thr) as [Sm|Sm]; cbn [andb].
    + destruct (em s' e) eqn:Ee; cbn [negb]; apply G; auto; cbn [edges_of pins_of]; fin.
    + apply G; auto; cbn [edges_of pins_of]; fin.
  - assert (Te : tgt ms e).
    { split; [apply (I10 e es); apply in_mid; auto|]. apply KE. left. reflexivity. }
    apply G; auto; cbn [em vm aq edges_of pins_of]; fin.
  - apply G; auto; cbn [edges_of pins_of]; fin.
  - destruct (vm s' v) eqn:Ev; apply G; auto; cbn [edges_of pins_of]; fin.
  - destruct (vm s v) eqn:Ev.
    + apply G; auto; cbn [edges_of pins_of]; fin.
    + assert (Tv : exists e, tgt ms e /\ In v (pins H e)) by (apply KP; left; reflexivity).
      assert (N0 : vm a0 v = false) by (destruct (vm a0 v) eqn:X; [rewrite (I4 v X) in Ev; discriminate|reflexivity]).
      apply G; auto; cbn [em vm aq edges_of pins_of]; fin.
      unfold upd. destruct (Nat.eqb_spec x v) as [->|]; [|apply I5]. rewrite I5, Ev, N0. cbn; lia.
Qed.
Lemma batch_inv ms a0 ls a a' : par (astep H thr) ls a a' -> ainv ms a0 ls a -> exists ls', ainv ms a0 ls' a' /\ Forall (fun l => astep H thr l a' = None) ls'.
Proof.
  induction 1 as [ls s HF|x l y s l' s' s'' E HP IH]; intros I; [exists ls; auto|]. apply IH. eapply astep_inv; eassumption.
Qed.
(** After the parallel loop exactly the pins of the small hyperedges of the moved nodes have been activated, each once. *)
Theorem batch_spec ms a0 a : closed a0 -> activate_batch H thr ms a0 a ->
  (forall e, em a e = true <-> em a0 e = true \/ tgt ms e) /\
  (forall v, vm a v = true <-> vm a0 v = true \/ exists e, tgt ms e /\ In v (pins H e)) /\
  (forall v, aq a v = (aq a0 v + (if vm a v && negb (vm a0 v) then 1 else 0))%nat) /\ closed a.
Proof.
  intros CL AB.
  assert (I0 : ainv ms a0 (map (fun m => AEdge (inc H (ln m))) ms) a0).
  { constructor; auto.
    - intros v. destruct (vm a0 v); cbn; lia.
    - intros e [_ (m & Hm & He)]. right. exists (AEdge (inc H (ln m))). split; [apply (in_map (fun m => AEdge (inc H (ln m))) ms m Hm)|exact He].
    - intros e He v Hv. left. apply (CL e He v Hv).
    - intros l e Hl He. apply in_map_iff in Hl. destruct Hl as (m & <- & Hm). exists m. auto.
    - intros l v Hl Hv. apply in_map_iff in Hl. destruct Hl as (m & <- & Hm). destruct Hv.
    - intros e es Hl. apply in_map_iff in Hl. destruct Hl as (m & X & _). discriminate. }
  destruct (batch_inv ms a0 _ a0 a AB I0) as (ls & [I1 I2 I3 I4 I5 I6 I7 I8 I9 I10] & FD). rewrite Forall_forall in FD.
  assert (D : forall l, In l ls -> edges_of l = [] /\ pins_of l = []).
  { intros l Hl. specialize (FD l Hl). destruct l as [[|e es]|e es|[|v vs] es|v vs es]; cbn in FD; try discriminate. auto. }
  assert (A : closed a).
  { intros e He v Hv. destruct (I7 e He v Hv) as [X|(l & Hl & X)]; [exact X|]. destruct (D l Hl) as [_ D2]. rewrite D2 in X. destruct X. }
  assert (B : forall e, tgt ms e -> em a e = true).
  { intros e He. destruct (I6 e He) as [X|(l & Hl & X)]; [exact X|]. destruct (D l Hl) as [D1 _]. rewrite D1 in X. destruct X. }
  split; [|split; [|split]]; [| |exact I5|exact A].
  - intros e. split; [apply I1|]. intros [X|X]; [apply I3, X|apply B, X].
  - intros v. split; [apply I2|]. intros [X|(e & He & Hv)]; [apply I4, X|]. apply (A e (B e He) v Hv).
Qed.
Lemma bool_iff (a b : bool) : (a = true <-> b = true) -> a = b.
Proof. destruct a, b; intros [X Y]; auto. symmetry. apply X. reflexivity. Qed.
Lemma batch_det ms a0 a a' : closed a0 -> activate_batch H thr ms a0 a -> activate_batch H thr ms a0 a' -> a = a'.
Proof.
  intros CL X Y. destruct (batch_spec ms a0 a CL X) as (E1 & V1 & Q1 & _), (batch_spec ms a0 a' CL Y) as (E2 & V2 & Q2 & _).
  assert (EE : em a = em a') by (apply functional_extensionality; intros e; apply bool_iff; rewrite E1, E2; reflexivity).
  assert (EV : vm a = vm a') by (apply functional_extensionality; intros e; apply bool_iff; rewrite V1, V2; reflexivity).
  assert (EQ : aq a = aq a') by (apply functional_extensionality; intros e; rewrite Q1, Q2, EV; reflexivity).
  destruct a, a'; cbn in *; congruence.
Qed.
Lemma activate_det : forall bs a0 a a', closed a0 -> activate H thr bs a0 a -> activate H thr bs a0 a' -> a = a' /\ closed a.
Proof.
  induction bs as [|b bs IH]; intros a0 a a' CL; cbn [activate]; [intros -> ->; auto|].
  intros (x & X1 & X2) (y & Y1 & Y2). pose proof (batch_det b a0 x y CL X1 Y1). subst y. destruct (batch_spec b a0 x CL X1) as (_ & _ & _ & CL'). apply (IH x); assumption.
Qed.
(** Every node is activated at most once, and only nodes are. *)
Definition once (a : act) : Prop := (forall v, aq a v = if vm a v then 1 else 0)%nat /\ (forall v, vm a v = true -> In v (nodes H)).
Lemma activate_once : wf_hg H -> forall bs a0 a, (forall b m, In b bs -> In m b -> In (ln m) (nodes H)) -> closed a0 -> once a0 -> activate H thr bs a0 a -> closed a /\ once a.
Proof.
  intros WF. induction bs as [|b bs IH]; intros a0 a BN CL O; cbn [activate]; [intros ->; auto|]. intros (x & X1 & X2).
  destruct (batch_spec b a0 x CL X1) as (E1 & V1 & Q1 & CL'). apply (IH x); [intros; eapply BN; [right|]; eassumption|exact CL'| |exact X2].
  destruct O as [O1 O2]. split.
  - intros v. rewrite Q1, O1. destruct (vm x v) eqn:Ev, (vm a0 v) eqn:E0; cbn; try lia.
  - intros v Hv. apply V1 in Hv. destruct Hv as [Hv|(e & [_ (m & Hm & He)] & Hv)]; [apply O2, Hv|].
    assert (Ee : In e (edges H)). { apply (wf_inc H WF) in He; [|apply (BN b m); [left; reflexivity|exact Hm]]. tauto. }
    apply (wf_pins_nodes H WF e v Ee Hv).
Qed.
End Activate.
Lemma le_sorted_unique : forall l l', Permutation l l' -> StronglySorted le l -> StronglySorted le l' -> l = l'.
Proof.
  induction l as [|a l IH]; intros l' HP S1 S2; [apply Permutation_nil in HP; congruence|].
  destruct l' as [|b l']; [apply Permutation_sym, Permutation_nil in HP; discriminate|].
  inversion S1 as [|? ? S1' F1]; subst. inversion S2 as [|? ? S2' F2]; subst. rewrite Forall_forall in F1, F2.
  assert (E : a = b).
  { assert (A : In a (b :: l')) by (apply (Permutation_in a HP); left; reflexivity). assert (B : In b (a :: l)) by (apply (Permutation_in b (Permutation_sym HP)); left; reflexivity).
    destruct A as [A|A]; [congruence|]. destruct B as [B|B]; [congruence|]. specialize (F1 b B). specialize (F2 a A). lia. }
  subst b. f_equal. apply IH; [|assumption|assumption]. apply (Permutation_cons_inv HP).
Qed.

Section Refine.
Variables (H : hypergraph) (k : nat) (L : nat -> Z) (fixed : nat -> bool) (cand : partition -> nat -> option (nat * Z)) (o : objective) (thr : nat).
Variables (useact : bool) (ranges : nat -> list nat -> nat -> list (list nat)).
Hypothesis Wn : forall v, 0 <= nw H v.
Hypothesis Wt : total_weight H <= MAXW.
Hypothesis LM : forall b, (b < k)%nat -> L b <= MAXW.
Hypothesis CK : forall P u to g, cand P u = Some (to, g) -> (to < k)%nat.
Hypothesis RO : forall it ac n rng, NoDup ac -> incl ac (nodes H) -> In rng (ranges it ac n) -> range_ok H rng.
Local Notation subs := (lp_subs H k L fixed cand o thr).
Local Notation ready := (ready H k).
Local Notation within := (within H k L).

Theorem subs_ok : forall rs s a s' a' g rev nm, subs rs s a s' a' g rev nm -> (forall rng, In rng rs -> range_ok H rng) -> ready s -> closed H a -> once H a ->
  ready s' /\ closed H a' /\ once H a' /\ 0 <= g /\ g = obj_spec o H (part s) - obj_spec o H (part s') /\ (within (part s) -> within (part s')) /\
  (forall v, fixed v = true -> part s' v = part s v).
Proof.
  induction 1 as [s a|rng rs s a s1 a1 s2 a2 g1 r1 n1 moved g2 r2 n2 S1 A1 S2 IH]; intros RG RD CL ON.
  - split; [exact RD|]. split; [exact CL|]. split; [exact ON|]. split; [lia|]. split; [lia|]. auto.
  - destruct (sub_ok H k L fixed cand o Wn Wt LM CK rng s s1 g1 r1 n1 moved RD (RG rng (or_introl eq_refl)) S1) as (R1 & P1 & E1 & B1 & F1 & M1).
    pose proof RD as [(WF & _) _].
    destruct (activate_once H thr WF moved a a1 M1 CL ON A1) as [CL1 ON1].
    destruct (IH (fun r Hr => RG r (or_intror Hr)) R1 CL1 ON1) as (R2 & CL2 & ON2 & P2 & E2 & B2 & F2).
    split; [exact R2|]. split; [exact CL2|]. split; [exact ON2|]. split; [lia|]. split; [lia|]. split; [auto|]. intros v Hv. rewrite F2, F1 by exact Hv. reflexivity.
Qed.
Theorem subs_det : forall rs s a s' a' g rev nm, subs rs s a s' a' g rev nm -> (forall rng, In rng rs -> range_ok H rng) ->
  forall t t' b' h rvt nm', ready s -> ready t -> part s = part t -> closed H a -> once H a -> subs rs t a t' b' h rvt nm' ->
  part s' = part t' /\ a' = b' /\ g = h /\ rev = rvt /\ nm = nm'.
Proof.
  induction 1 as [s a|rng rs s a s1 a1 s2 a2 g1 r1 n1 moved g2 r2 n2 S1 A1 S2 IH]; intros RG t t' b' h rvt nm' Rs Rt E CL ON T.
  - inversion T; subst. auto.
  - inversion T as [|? ? ? ? t1 b1 t2 b2 h1 q1 m1 moved' h2 q2 m2 T1 B1 T2]; subst.
    destruct (sub_det H k L fixed cand o Wn Wt LM CK rng s s1 g1 r1 n1 moved t t1 h1 q1 m1 moved' Rs Rt E (RG rng (or_introl eq_refl)) S1 T1) as (E1 & -> & -> & -> & ->).
    destruct (activate_det H thr moved' a a1 b1 CL A1 B1) as [-> _].
    destruct (sub_ok H k L fixed cand o Wn Wt LM CK rng s s1 h1 q1 m1 moved' Rs (RG rng (or_introl eq_refl)) S1) as (R1 & _ & _ & _ & _ & M1).
    destruct (sub_ok H k L fixed cand o Wn Wt LM CK rng t t1 h1 q1 m1 moved' Rt (RG rng (or_introl eq_refl)) T1) as (R2 & _).
    pose proof Rs as [(WF & _) _]. destruct (activate_once H thr WF moved' a b1 M1 CL ON A1) as [CL1 ON1].
    destruct (IH (fun r Hr => RG r (or_intror Hr)) t1 t' b' h2 q2 m2 R1 R2 E1 CL1 ON1 T2) as (X1 & X2 & -> & -> & ->). auto.
Qed.
Lemma closed0 : closed H act0.
Proof. intros e He. discriminate. Qed.
Lemma once0 : once H act0.
Proof. split; [reflexivity|]. intros v Hv. discriminate. Qed.
Lemma act_list a ac : once H a -> (forall v, count_occ Nat.eq_dec ac v = aq a v) -> NoDup ac /\ incl ac (nodes H).
Proof.
  intros [O1 O2] C. split.
  - apply (NoDup_count_occ Nat.eq_dec). intros v. rewrite C, O1. destruct (vm a v); lia.
  - intros v Hv. apply O2. apply (count_occ_In Nat.eq_dec) in Hv. rewrite C, O1 in Hv. destruct (vm a v); [reflexivity|lia].
Qed.
Lemma rng_ok it ac sac n : Permutation ac sac -> NoDup ac -> incl ac (nodes H) -> forall rng, In rng (ranges it (if useact then sac else []) n) -> range_ok H rng.
Proof.
  intros P N I rng. apply RO; destruct useact; [apply (Permutation_NoDup P N)|constructor| |intros x []].
  intros x Hx. apply I. apply (Permutation_in x (Permutation_sym P) Hx).
Qed.
Local Notation iters := (lp_iters H k L fixed cand o thr useact ranges).
Theorem iters_ok : forall r it n ac s s' g, iters r it n ac s s' g -> NoDup ac -> incl ac (nodes H) -> ready s ->
  ready s' /\ 0 <= g /\ g = obj_spec o H (part s) - obj_spec o H (part s') /\ (within (part s) -> within (part s')) /\ (forall v, fixed v = true -> part s' v = part s v).
Proof.
  induction 1 as [it n ac s|r it n ac sac s s' a g rev P S X|r it n ac sac s s1 a g1 rev nm ac' s2 g2 P S X Nm C Y IH]; intros N I RD.
  - split; [exact RD|]. split; [lia|]. split; [lia|]. auto.
  - destruct (subs_ok _ _ _ _ _ _ _ _ X (rng_ok it ac sac n P N I) RD closed0 once0) as (R & _ & _ & Z). auto.
  - destruct (subs_ok _ _ _ _ _ _ _ _ X (rng_ok it ac sac n P N I) RD closed0 once0) as (R & _ & O & G1 & E1 & B1 & F1).
    destruct (act_list a ac' O C) as [N' I']. destruct (IH N' I' R) as (R2 & G2 & E2 & B2 & F2).
    split; [exact R2|]. split; [lia|]. split; [lia|]. split; [auto|]. intros v Hv. rewrite F2, F1 by exact Hv. reflexivity.
Qed.
Theorem iters_det : forall r it n ac s s' g, iters r it n ac s s' g -> forall bc t t' h, Permutation ac bc -> NoDup ac -> incl ac (nodes H) -> ready s -> ready t -> part s = part t ->
  iters r it n bc t t' h -> part s' = part t' /\ g = h.
Proof.
  induction 1 as [it n ac s|r it n ac sac s s' a g rev P S X|r it n ac sac s s1 a g1 rev nm ac' s2 g2 P S X Nm C Y IH]; intros bc t t' h PB N I Rs Rt E T.
  - inversion T; subst. auto.
  - inversion T as [|? ? ? ? sbc ? ? b ? rvt Q SQ T1|? ? ? ? sbc ? t1 b h1 rvt nm' bc' ? h2 Q SQ T1 Nm' D T2]; subst.
    + assert (ES : sac = sbc) by (apply le_sorted_unique; [rewrite <- P, PB; exact Q|exact S|exact SQ]). subst sbc.
      destruct (subs_det _ _ _ _ _ _ _ _ X (rng_ok it ac sac n P N I) _ _ _ _ _ _ Rs Rt E closed0 once0 T1) as (E1 & _ & -> & _). auto.
    + assert (ES : sac = sbc) by (apply le_sorted_unique; [rewrite <- P, PB; exact Q|exact S|exact SQ]). subst sbc.
      destruct (subs_det _ _ _ _ _ _ _ _ X (rng_ok it ac sac n P N I) _ _ _ _ _ _ Rs Rt E closed0 once0 T1) as (_ & _ & _ & _ & Z). congruence.
  - inversion T as [|? ? ? ? sbc ? ? b ? rvt Q SQ T1|? ? ? ? sbc ? t1 b h1 rvt nm' bc' ? h2 Q SQ T1 Nm' D T2]; subst.
    + assert (ES : sac = sbc) by (apply le_sorted_unique; [rewrite <- P, PB; exact Q|exact S|exact SQ]). subst sbc.
      destruct (subs_det _ _ _ _ _ _ _ _ X (rng_ok it ac sac n P N I) _ _ _ _ _ _ Rs Rt E closed0 once0 T1) as (_ & _ & _ & _ & Z). congruence.
    + assert (ES : sac = sbc) by (apply le_sorted_unique; [rewrite <- P, PB; exact Q|exact S|exact SQ]). subst sbc.
      destruct (subs_det _ _ _ _ _ _ _ _ X (rng_ok it ac sac n P N I) _ _ _ _ _ _ Rs Rt E closed0 once0 T1) as (E1 & <- & -> & -> & _).
      destruct (subs_ok _ _ _ _ _ _ _ _ X (rng_ok it ac sac n P N I) Rs closed0 once0) as (R1 & _ & O & _).
      assert (IB : incl bc (nodes H)) by (intros x Hx; apply I, (Permutation_in x (Permutation_sym PB) Hx)).
      destruct (subs_ok _ _ _ _ _ _ _ _ T1 (rng_ok it bc sac n Q (Permutation_NoDup PB N) IB) Rt closed0 once0) as (R2 & _).
      destruct (act_list a ac' O C) as [N' I'].
      assert (PA : Permutation ac' bc') by (apply (Permutation_count_occ Nat.eq_dec); intros v; rewrite C, D; reflexivity).
      destruct (IH bc' t1 t' h2 PA N' I' R1 R2 E1 T2) as [E2 ->]. auto.
Qed.
End Refine.
