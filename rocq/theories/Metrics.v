(** Metrics.v - model of mt-kahypar/partition/metrics.cpp on top of the partition model PHG.v.
    Simplifications: 32-bit weights are unbounded [Z]; the double arithmetic of imbalance() is exact rational
    arithmetic [Q]; steiner_tree is modelled separately (TargetGraph.v). *)
From Coq Require Import QArith Qminmax.
From Verif Require Import Base Spec SpecLemmas WfCheck PHG PHGProofs Objective PropsA.
Close Scope Q_scope. Open Scope Z_scope.

(** context_enum_classes.h: Objective, restricted to the three connectivity objectives. *)
Inductive objective := Ocut | Okm1 | Osoed.

(** ObjectiveFunction<.., cut|km1|soed>::operator(), metrics.cpp:41-66. *)
Definition obj_edge (o : objective) (H : hypergraph) (s : phg) (e : nat) : Z :=
  match o with
  | Ocut => if 1 <? conn s e then ew H e else 0
  | Okm1 => Z.max (conn s e - 1) 0 * ew H e
  | Osoed => if 1 <? conn s e then conn s e * ew H e else 0
  end.

(** compute_objective_sequentially, metrics.cpp:87-94 (hypergraphs: divisor 1). *)
Definition quality_seq (o : objective) (H : hypergraph) (s : phg) : Z :=
  fold_left (fun acc e => acc + obj_edge o H s e) (edges H) 0.

(** compute_objective_parallel, metrics.cpp:77-85: [per_thread] lists, for each thread-local slot in the order in
    which combine() visits them, the hyperedges that thread processed, in its processing order. *)
Definition quality_par (o : objective) (H : hypergraph) (s : phg) (per_thread : list (list nat)) : Z :=
  fold_left Z.add (map (fun es => fold_left (fun acc e => acc + obj_edge o H s e) es 0) per_thread) 0.

(** contribution(hg, he, objective), metrics.cpp:133-145.  The case for cut really instantiates
    contribution<Objective::soed>. *)
Definition contribution (o : objective) (H : hypergraph) (s : phg) (e : nat) : Z :=
  match o with
  | Ocut => obj_edge Osoed H s e
  | Okm1 => obj_edge Okm1 H s e
  | Osoed => obj_edge Osoed H s e
  end.

(** isBalanced, metrics.cpp:147-161.  [large_k]: preset_type == large_k; [removed]: numRemovedHypernodes().
    The loop carries the number of empty parts and returns early. *)
Fixpoint isBalanced_loop (s : phg) (L : nat -> Z) (blocks : list nat) (empty : Z) : option Z :=
  match blocks with
  | [] => Some empty
  | i :: r => if L i <? partWeight s i then None
              else isBalanced_loop s L r (if partWeight s i =? 0 then empty + 1 else empty)
  end.
Definition isBalanced (s : phg) (k : nat) (L : nat -> Z) (large_k : bool) (removed : Z) : bool :=
  match isBalanced_loop s L (seq 0 k) 0 with
  | None => false
  | Some empty => large_k || (empty <=? removed)
  end.

(** imbalance, metrics.cpp:163-179. *)
Definition imbalance (s : phg) (k : nat) (perfect : nat -> Z) : Q :=
  let ratio := fun i => (inject_Z (partWeight s i) / inject_Z (perfect i))%Q in
  (fold_left (fun m i => Qmax m (ratio i)) (seq 1 (k - 1)) (ratio 0%nat) - 1)%Q.

(** ---- proofs ---- *)
Definition obj_spec_edge (o : objective) : hypergraph -> partition -> nat -> Z :=
  match o with Ocut => cut_edge | Okm1 => km1_edge | Osoed => soed_edge end.
Definition obj_spec (o : objective) : hypergraph -> partition -> Z :=
  match o with Ocut => cut | Okm1 => km1 | Osoed => soed end.

Lemma fold_add_sum {A} (f : A -> Z) l : forall a, fold_left (fun acc e => acc + f e) l a = a + sumZ f l.
Proof. induction l as [|x r IH]; intros a; simpl; [lia|]. rewrite IH. lia. Qed.
Lemma fold_left_ext_ {A B} (f g : A -> B -> A) l : (forall a b, f a b = g a b) -> forall a, fold_left f l a = fold_left g l a.
Proof. intros E. induction l as [|x r IH]; intros a; simpl; [reflexivity|]. rewrite E. apply IH. Qed.

Lemma quality_seq_sum o H s : quality_seq o H s = sumZ (obj_edge o H s) (edges H).
Proof. unfold quality_seq. rewrite fold_add_sum. lia. Qed.
Lemma quality_par_sum o H s pt : quality_par o H s pt = sumZ (obj_edge o H s) (concat pt).
Proof.
  unfold quality_par. rewrite (fold_left_ext_ Z.add (fun acc e => acc + id e)) by reflexivity.
  rewrite fold_add_sum, sumZ_map, sumZ_concat. simpl. apply sumZ_ext. intros l _. unfold id.
  rewrite fold_add_sum. lia.
Qed.

Definition nonempty_edges (H : hypergraph) : Prop := forall e, In e (edges H) -> pins H e <> [].

Lemma conn_ge1_complete H P k e : wf_hg H -> nonempty_edges H -> complete H P k -> In e (edges H) -> 1 <= connectivity H P e.
Proof.
  intros WF NE HC He. specialize (NE e He). destruct (pins H e) as [|v r] eqn:E; [congruence|].
  destruct (HC v) as (b & Hb & _). { apply (wf_pins_nodes H WF e v He). rewrite E. left. reflexivity. }
  apply (connectivity_pos H P e v b); [rewrite E; left; reflexivity|exact Hb].
Qed.

Lemma obj_edge_exact o H k l s e :
  reachable H k l s -> nonempty_edges H -> complete H (part s) k -> In e (edges H) ->
  obj_edge o H s e = obj_spec_edge o H (part s) e.
Proof.
  intros R NE HC He. pose proof R as (WF & _).
  pose proof (C02_pin_counts_and_connectivity_exact H k l s R) as (_ & Hc & _).
  pose proof (conn_ge1_complete H (part s) k e WF NE HC He) as H1.
  unfold obj_edge, obj_spec_edge, cut_edge, km1_edge, soed_edge. rewrite (Hc e He).
  destruct o; try lia. destruct (1 <? connectivity H (part s) e); lia.
Qed.

Lemma isBalanced_loop_spec s L bs : forall e0,
  match isBalanced_loop s L bs e0 with
  | None => exists i, In i bs /\ L i < partWeight s i
  | Some e => (forall i, In i bs -> partWeight s i <= L i) /\ e = e0 + Z.of_nat (length (filter (fun i => partWeight s i =? 0) bs))
  end.
Proof.
  induction bs as [|i r IH]; intros e0; cbn [isBalanced_loop].
  - split; [intros i []|simpl; lia].
  - destruct (Z.ltb_spec (L i) (partWeight s i)) as [Hlt|Hge].
    + exists i. split; [left; reflexivity|exact Hlt].
    + specialize (IH (if partWeight s i =? 0 then e0 + 1 else e0)).
      destruct (isBalanced_loop s L r _) as [e|].
      * destruct IH as [A B]. split.
        -- intros j [<-|Hj]; [exact Hge|apply A; exact Hj].
        -- cbn [filter]. destruct (partWeight s i =? 0); simpl length; lia.
      * destruct IH as (j & Hj & Hl). exists j. split; [right; exact Hj|exact Hl].
Qed.

Lemma fold_Qmax (f : nat -> Q) l : forall a,
  let m := fold_left (fun m i => Qmax m (f i)) l a in
  (a <= m)%Q /\ (forall i, In i l -> (f i <= m)%Q) /\ ((m == a)%Q \/ exists i, In i l /\ (m == f i)%Q).
Proof.
  induction l as [|x r IH]; intros a; simpl.
  - split; [apply Qle_refl|]. split; [intros i []|left; reflexivity].
  - destruct (IH (Qmax a (f x))) as (A & B & C). split; [|split].
    + eapply Qle_trans; [apply Q.le_max_l|exact A].
    + intros i [<-|Hi]; [eapply Qle_trans; [apply Q.le_max_r|exact A]|apply B; exact Hi].
    + destruct C as [C|(i & Hi & C)].
      * destruct (Q.max_spec a (f x)) as [[_ E]|[_ E]].
        -- right. exists x. split; [left; reflexivity|]. rewrite C, E. reflexivity.
        -- left. rewrite C, E. reflexivity.
      * right. exists i. split; [right; exact Hi|exact C].
Qed.

(** C11: the reported objective values are the documented ones, for the sequential and every parallel reduction. *)
Theorem C11_metrics_exact : forall o H k l s per_thread,
  reachable H k l s -> nonempty_edges H -> complete H (part s) k ->
  Permutation (concat per_thread) (edges H) ->
  quality_seq o H s = obj_spec o H (part s) /\ quality_par o H s per_thread = obj_spec o H (part s).
Proof.
  intros o H k l s pt R NE HC HP.
  assert (E : sumZ (obj_edge o H s) (edges H) = obj_spec o H (part s)).
  { rewrite (sumZ_ext _ (obj_spec_edge o H (part s))) by (intros e He; apply (obj_edge_exact o H k l s e R NE HC He)).
    destruct o; reflexivity. }
  split; [rewrite quality_seq_sum; exact E|].
  rewrite quality_par_sum, (sumZ_perm _ _ _ HP). exact E.
Qed.

(** C11: relations between the three objectives. *)
Theorem C11_objective_relations : forall H P k,
  wf_hg H -> nonempty_edges H -> complete H P k -> (forall e, In e (edges H) -> 0 <= ew H e) ->
  soed H P = km1 H P + cut H P /\ 0 <= cut H P /\ cut H P <= km1 H P /\ km1 H P <= soed H P /\
  (cut H P = 0 <-> km1 H P = 0) /\ (cut H P = 0 <-> soed H P = 0) /\
  ((k <= 2)%nat -> cut H P = km1 H P /\ soed H P = 2 * cut H P).
Proof.
  intros H P k WF NE HC HW.
  assert (C1 : forall e, In e (edges H) -> 1 <= connectivity H P e) by (intros; eapply conn_ge1_complete; eauto).
  assert (S : soed H P = km1 H P + cut H P).
  { unfold soed, km1, cut. rewrite <- sumZ_plus. apply sumZ_ext. intros e He. specialize (C1 e He).
    unfold soed_edge, km1_edge, cut_edge. destruct (Z.ltb_spec 1 (connectivity H P e)); [ring|].
    replace (connectivity H P e) with 1 by lia. lia. }
  assert (C0 : 0 <= cut H P).
  { apply sumZ_nonneg. intros e He. unfold cut_edge. specialize (HW e He). destruct (1 <? _); lia. }
  assert (CK : cut H P <= km1 H P).
  { apply sumZ_le. intros e He. unfold cut_edge, km1_edge. specialize (HW e He). specialize (C1 e He).
    destruct (Z.ltb_spec 1 (connectivity H P e)); nia. }
  assert (KZ : cut H P = 0 -> km1 H P = 0).
  { intros E0. apply sumZ_zero. intros e He.
    assert (Ez : cut_edge H P e = 0).
    { apply (sumZ_eq0 (cut_edge H P) (edges H)); [|exact E0|exact He].
      intros x Hx. unfold cut_edge. specialize (HW x Hx). destruct (1 <? _); lia. }
    unfold cut_edge in Ez. unfold km1_edge. specialize (C1 e He).
    destruct (Z.ltb_spec 1 (connectivity H P e)); [rewrite Ez; lia|].
    replace (connectivity H P e) with 1 by lia. lia. }
  split; [exact S|]. split; [exact C0|]. split; [exact CK|]. split; [lia|].
  split; [split; intros; [apply KZ; assumption|lia]|]. split; [split; intros E0; [rewrite S, (KZ E0); lia|lia]|].
  intros Hk.
  assert (CE : cut H P = km1 H P).
  { apply sumZ_ext. intros e He. unfold cut_edge, km1_edge. specialize (C1 e He).
    assert (connectivity H P e <= 2).
    { rewrite (connectivity_count H P k e).
      - unfold countb. pose proof (sumZ_le (fun i => Z.b2z (0 <? pin_count H P e i)) (fun _ => 1) (seq 0 k)) as HL.
        rewrite sumZ_const in HL. rewrite seq_length in HL.
        assert (forall x, In x (seq 0 k) -> Z.b2z (0 <? pin_count H P e x) <= 1) by (intros x _; destruct (0 <? _); simpl; lia).
        specialize (HL H0). lia.
      - intros v b Hv Hb. destruct (HC v (wf_pins_nodes H WF e v He Hv)) as (b' & Hb' & Hlt). congruence. }
    destruct (Z.ltb_spec 1 (connectivity H P e)).
    - replace (connectivity H P e) with 2 by lia. lia.
    - replace (connectivity H P e) with 1 by lia. lia. }
  split; [exact CE|lia].
Qed.

(** C12: contribution() of a hyperedge equals its share of the objective for km1 and soed. *)
Theorem C12_contribution_exact : forall o H k l s e,
  reachable H k l s -> nonempty_edges H -> complete H (part s) k -> In e (edges H) -> o <> Ocut ->
  contribution o H s e = obj_spec_edge o H (part s) e.
Proof.
  intros o H k l s e R NE HC He Ho. rewrite <- (obj_edge_exact o H k l s e R NE HC He).
  destruct o; [congruence|reflexivity|reflexivity].
Qed.
(** For cut it reports the soed share, i.e. connectivity times too much for every cut hyperedge. *)
Theorem C12_contribution_cut_is_soed : forall H k l s e,
  reachable H k l s -> nonempty_edges H -> complete H (part s) k -> In e (edges H) ->
  contribution Ocut H s e = connectivity H (part s) e * obj_spec_edge Ocut H (part s) e.
Proof.
  intros H k l s e R NE HC He. unfold contribution. rewrite (obj_edge_exact Osoed H k l s e R NE HC He).
  unfold obj_spec_edge, soed_edge, cut_edge. destruct (1 <? _); lia.
Qed.

(** C39 *)
Theorem C39_balance_check : forall H k l s L large_k removed, reachable H k l s ->
  (isBalanced s k L large_k removed = true <->
   balanced H (part s) k L /\
   (large_k = true \/ Z.of_nat (length (filter (fun b => block_weight H (part s) b =? 0) (seq 0 k))) <= removed)).
Proof.
  intros H k l s L lk rm R. destruct (C01_block_weights_exact H k l s R) as [W _].
  unfold isBalanced. pose proof (isBalanced_loop_spec s L (seq 0 k) 0) as B.
  destruct (isBalanced_loop s L (seq 0 k) 0) as [e|].
  - destruct B as [A E]. simpl in E.
    assert (F : filter (fun i => partWeight s i =? 0) (seq 0 k) = filter (fun b => block_weight H (part s) b =? 0) (seq 0 k)).
    { apply filter_ext_in. intros b Hb. apply in_seq in Hb. rewrite W by lia. reflexivity. }
    rewrite F in E. subst e. rewrite orb_true_iff, Z.leb_le. split.
    + intros X. split; [|tauto]. intros b Hb. rewrite <- W by exact Hb. apply A. apply in_seq. lia.
    + tauto.
  - destruct B as (i & Hi & Hl). apply in_seq in Hi. split; [discriminate|]. intros [Hb _].
    specialize (Hb i ltac:(lia)). rewrite W in Hl by lia. lia.
Qed.

Theorem C39_imbalance : forall H k l s perfect, reachable H k l s -> (0 < k)%nat ->
  (forall b, (b < k)%nat -> 0 < perfect b) ->
  (forall b, (b < k)%nat -> (inject_Z (block_weight H (part s) b) / inject_Z (perfect b) - 1 <= imbalance s k perfect)%Q) /\
  (exists b, (b < k)%nat /\ (imbalance s k perfect == inject_Z (block_weight H (part s) b) / inject_Z (perfect b) - 1)%Q).
Proof.
  intros H k l s pf R Hk _. destruct (C01_block_weights_exact H k l s R) as [W _].
  unfold imbalance.
  pose proof (fold_Qmax (fun i => (inject_Z (partWeight s i) / inject_Z (pf i))%Q) (seq 1 (k - 1))
    (inject_Z (partWeight s 0) / inject_Z (pf 0%nat))%Q) as (A & B & C). cbv zeta in *. split.
  - intros b Hb. rewrite <- W by exact Hb. apply Qplus_le_compat; [|apply Qle_refl].
    destruct b as [|b]; [exact A|]. apply (B (S b)). apply in_seq. lia.
  - destruct C as [C|(i & Hi & C)].
    + exists 0%nat. split; [exact Hk|]. rewrite C. rewrite <- W by exact Hk. reflexivity.
    + apply in_seq in Hi. exists i. split; [lia|]. rewrite C, <- W by lia. reflexivity.
Qed.

(** Refutation of C12 for the cut objective, and non-vacuity of the hypotheses above. *)
Lemma ex_complete : complete exH (part ex_state) 2.
Proof. destruct ex_started as (_ & _ & HC). exact HC. Qed.
Lemma ex_nonempty : nonempty_edges exH.
Proof. intros e He. simpl in He. destruct He as [<-|[<-|[<-|[]]]]; discriminate. Qed.
Theorem C12_refuted_for_cut :
  exists H k l s e, reachable H k l s /\ nonempty_edges H /\ complete H (part s) k /\ In e (edges H) /\
    contribution Ocut H s e <> obj_spec_edge Ocut H (part s) e.
Proof.
  exists exH, 2%nat, ex_ops, ex_state, 1%nat. split; [exact ex_reachable|]. split; [exact ex_nonempty|].
  split; [exact ex_complete|]. split; [simpl; tauto|]. vm_compute. discriminate.
Qed.
Example ex_metrics : quality_seq Ocut exH ex_state = 4 /\ quality_par Okm1 exH ex_state [[2];[];[1;0]]%nat = 4 /\
  quality_seq Osoed exH ex_state = 8 /\ isBalanced ex_state 2 (fun _ => 4) false 0 = true /\
  isBalanced ex_state 2 (fun b => match b with O => 3 | _ => 9 end) false 0 = false /\
  (imbalance ex_state 2 (fun _ => 4%Z) == 0)%Q.
Proof. vm_compute. repeat split; reflexivity. Qed.
