(** GraphConstruct.v - construction of a graph from user data:
    StaticGraphFactory::construct (mt-kahypar/datastructures/static_graph_factory.cpp:70-91),
    construct_from_graph_edges (:93-206), sort_incident_edges (:42-68), create_graph (include/lib_helper_functions.h:384-413),
    mt_kahypar_create_graph (lib/mtkahypar.cpp:330-352).  DynamicGraph (highest_quality) is not modelled here.

    Scheduling freedom as in Construct.v, plus the result of std::sort among equal keys and the order in which the nodes are
    sorted.  An exception, and a non-terminating inner loop of sort_incident_edges, are [None]. *)
From Verif Require Import Base Spec Sorting Csr Construct.

(** StaticGraph::Edge plus _unique_edge_ids (static_graph.h) *)
Record gedge := mkGE { g_src : nat; g_tgt : nat; g_uid : nat; g_w : Z }.
Definition ge0 : gedge := mkGE 0 0 0 0.
(** The finished graph: incident edges and weight of each node. *)
Record graph := mkG { g_n : nat; g_adj : nat -> list gedge; g_nw : nat -> Z }.

Lemma iter_succ_r_ {A} (f : A -> A) j x : Nat.iter (S j) f x = Nat.iter j f (f x).
Proof. induction j as [|j IH]; [reflexivity|]. simpl in *. rewrite IH. reflexivity. Qed.
Lemma iter_add_ {A} (f : A -> A) a b x : Nat.iter (a + b) f x = Nat.iter a f (Nat.iter b f x).
Proof. induction a as [|a IH]; [reflexivity|]. simpl in *. rewrite IH. reflexivity. Qed.

(** *** Applying a permutation by cycle chasing, :58-66 *)
Section Permute.
Variable p : nat -> nat.
(** while (target < i) target = edge_ids_of_node[start + target], :60-62.  [None]: not finished after [fuel] rounds. *)
Fixpoint chase (fuel i t : nat) : option nat :=
  if (t <? i)%nat then match fuel with O => None | S f => chase f i (p t) end else Some t.
(** the for loop of :58-66 with [cnt] iterations left; [base] = start *)
Fixpoint permute (cnt i base : nat) (mem : nat -> gedge) : option (nat -> gedge) :=
  match cnt with
  | O => Some mem
  | S c => match chase (S i) i (p i) with
           | None => None
           | Some t => permute c (S i) base (upd (upd mem (base + i)%nat (mem (base + t)%nat)) (base + t)%nat (mem (base + i)%nat))
           end
  end.

Lemma chase_some fuel : forall i q L, chase fuel i q = Some L ->
  exists j, (j <= fuel)%nat /\ (forall j', (j' < j)%nat -> (Nat.iter j' p q < i)%nat) /\ Nat.iter j p q = L /\ (i <= L)%nat.
Proof.
  induction fuel as [|f IH]; intros i q L E; cbn [chase] in E; destruct (Nat.ltb_spec q i) as [C|C]; try discriminate.
  - injection E as <-. exists 0%nat. repeat split; [lia|lia|exact C].
  - destruct (IH _ _ _ E) as (j & A & B & D & F). exists (S j). split; [lia|]. split.
    + intros [|j'] Hj; [exact C|]. rewrite iter_succ_r_. apply B. lia.
    + split; [rewrite iter_succ_r_; exact D|exact F].
  - injection E as <-. exists 0%nat. repeat split; [lia|lia|exact C].
Qed.
Lemma chase_none fuel : forall i q, chase fuel i q = None -> forall j, (j <= fuel)%nat -> (Nat.iter j p q < i)%nat.
Proof.
  induction fuel as [|f IH]; intros i q E j Hj; cbn [chase] in E; destruct (Nat.ltb_spec q i) as [C|C]; try discriminate.
  - replace j with 0%nat by lia. exact C.
  - destruct j as [|j]; [exact C|]. rewrite iter_succ_r_. apply (IH _ _ E). lia.
Qed.

Variable n : nat.
Hypothesis P1 : forall i, (i < n)%nat -> (p i < n)%nat.
Hypothesis P2 : forall i j, (i < n)%nat -> (j < n)%nat -> p i = p j -> i = j.

Lemma iter_lt j q : (q < n)%nat -> (Nat.iter j p q < n)%nat.
Proof. intros Hq. induction j as [|j IH]; [exact Hq|]. simpl. apply P1, IH. Qed.
Lemma iter_cancel j a b : (a < n)%nat -> (b < n)%nat -> Nat.iter j p a = Nat.iter j p b -> a = b.
Proof. intros Ha Hb. induction j as [|j IH]; intros E; [exact E|]. apply IH, P2; [apply iter_lt, Ha|apply iter_lt, Hb|exact E]. Qed.
(** [L] is where the element that started at [q] is, before iteration [i]. *)
Definition loc (i q L : nat) : Prop :=
  exists j, (forall j', (j' < j)%nat -> (Nat.iter j' p q < i)%nat) /\ Nat.iter j p q = L /\ (i <= L)%nat.
Definition unplaced (i q : nat) : Prop := forall j, (j < i)%nat -> p j <> q.

Lemma loc_inj i q q' L : (i <= n)%nat -> (q < n)%nat -> (q' < n)%nat -> unplaced i q -> unplaced i q' -> loc i q L -> loc i q' L -> q = q'.
Proof.
  assert (G : forall q q' j j', (i <= n)%nat -> (q < n)%nat -> (q' < n)%nat -> unplaced i q' -> (j' <= j)%nat ->
    (forall a, (a < j)%nat -> (Nat.iter a p q < i)%nat) -> Nat.iter j p q = Nat.iter j' p q' -> q = q').
  { clear q q'. intros q q' j j' Hi Hq Hq' U' Hj B E. replace j with (j' + (j - j'))%nat in E by lia. rewrite iter_add_ in E.
    apply iter_cancel in E; [|apply iter_lt, Hq|exact Hq']. destruct (j - j')%nat as [|d] eqn:D; [exact E|].
    exfalso. apply (U' (Nat.iter d p q)); [apply B; lia|exact E]. }
  intros Hi Hq Hq' U U' (j & A & B & _) (j' & A' & B' & _). destruct (Nat.le_ge_cases j' j) as [C|C].
  - apply (G q q' j j'); try assumption. congruence.
  - symmetry. apply (G q' q j' j); try assumption. congruence.
Qed.
Lemma loc_exists i q : (i <= n)%nat -> (q < n)%nat -> unplaced i q -> exists L, chase (S i) i q = Some L /\ loc i q L.
Proof.
  intros Hi Hq U. destruct (chase (S i) i q) as [L|] eqn:E.
  { exists L. split; [reflexivity|]. destruct (chase_some _ _ _ _ E) as (j & _ & A & B & C). exists j. auto. }
  exfalso. pose proof (chase_none _ _ _ E) as A.
  assert (N : NoDup (map (fun j => Nat.iter j p q) (seq 0 (S i)))).
  { rewrite NoDup_nth with (d := Nat.iter 0 p q). intros a b Ha Hb Eq. rewrite map_length, seq_length in Ha, Hb.
    rewrite !(map_nth (fun j => Nat.iter j p q)), !seq_nth in Eq by assumption. cbn [Nat.add] in Eq.
    assert (G : forall a b, (a < b)%nat -> (b < S i)%nat -> Nat.iter a p q = Nat.iter b p q -> False).
    { clear a b Ha Hb Eq. intros a b Hab Hb Eq. replace b with (a + (b - a))%nat in Eq by lia. rewrite iter_add_ in Eq.
      apply iter_cancel in Eq; [|exact Hq|apply iter_lt, Hq]. destruct (b - a)%nat as [|d] eqn:D; [lia|].
      apply (U (Nat.iter d p q)); [apply A; lia|symmetry; exact Eq]. }
    destruct (Nat.lt_total a b) as [C|[C|C]]; [exfalso; apply (G a b); auto|exact C|exfalso; apply (G b a); auto]. }
  assert (I : incl (map (fun j => Nat.iter j p q) (seq 0 (S i))) (seq 0 i)).
  { intros x Hx. apply in_map_iff in Hx. destruct Hx as (j & <- & Hj). apply in_seq in Hj. apply in_seq. specialize (A j ltac:(lia)). lia. }
  pose proof (NoDup_incl_length N I) as C. rewrite map_length, !seq_length in C. lia.
Qed.
Lemma loc_fun i q L L' : loc i q L -> loc i q L' -> L = L'.
Proof.
  intros (j & A & B & C) (j' & A' & B' & C'). destruct (Nat.lt_total j j') as [D|[D|D]]; [specialize (A' j D); lia|congruence|specialize (A j' D); lia].
Qed.
Lemma loc_lt i q L : (q < n)%nat -> loc i q L -> (L < n)%nat.
Proof. intros Hq (j & _ & <- & _). apply iter_lt, Hq. Qed.

Lemma permute_correct (d0 : nat -> gedge) base : forall cnt i mem, (i + cnt = n)%nat ->
  (forall j, (j < i)%nat -> mem (base + j)%nat = d0 (p j)) ->
  (forall q L, (q < n)%nat -> unplaced i q -> loc i q L -> mem (base + L)%nat = d0 q) ->
  exists mem', permute cnt i base mem = Some mem' /\
    (forall j, (j < n)%nat -> mem' (base + j)%nat = d0 (p j)) /\
    (forall a, (a < base \/ base + n <= a)%nat -> mem' a = mem a).
Proof.
  induction cnt as [|c IH]; intros i mem Hc A B.
  { exists mem. split; [reflexivity|]. split; [intros j Hj; apply A; lia|reflexivity]. }
  assert (Hi : (i < n)%nat) by lia. assert (Up : unplaced i (p i)).
  { intros j Hj E. assert (j = i) by (apply P2; [lia|lia|exact E]). lia. }
  destruct (loc_exists i (p i) ltac:(lia) (P1 i Hi) Up) as (T & ET & LT).
  cbn [permute]. rewrite ET. pose proof (loc_lt _ _ _ (P1 i Hi) LT) as HT.
  assert (HTi : (i <= T)%nat) by (destruct LT as (j & _ & _ & X); exact X).
  set (mem2 := upd _ _ _).
  assert (M1 : mem2 (base + i)%nat = d0 (p i)).
  { unfold mem2. destruct (Nat.eq_dec T i) as [->|D]; [rewrite upd_same; apply (B (p i) i (P1 i Hi) Up LT)|].
    rewrite upd_other by lia. rewrite upd_same. apply (B (p i) T (P1 i Hi) Up LT). }
  assert (MT : mem2 (base + T)%nat = mem (base + i)%nat) by (unfold mem2; apply upd_same).
  assert (MO : forall a, a <> (base + i)%nat -> a <> (base + T)%nat -> mem2 a = mem a).
  { intros a H1 H2. unfold mem2. rewrite !upd_other by assumption. reflexivity. }
  destruct (IH (S i) mem2) as (mem' & E & X & Y); [lia| | |].
  - intros j Hj. destruct (Nat.eq_dec j i) as [->|D]; [exact M1|]. rewrite MO by lia. apply A. lia.
  - intros q L Hq Uq Lq. assert (Uq' : unplaced i q) by (intros j Hj; apply Uq; lia).
    assert (Nq : q <> p i) by (intros ->; apply (Uq i); [lia|reflexivity]).
    destruct (loc_exists i q ltac:(lia) Hq Uq') as (L0 & _ & LL0).
    destruct (Nat.eq_dec L0 i) as [->|D].
    + (* the element moves from i to T *)
      assert (TD : T <> i). { intros ->. apply Nq. apply (loc_inj i q (p i) i); try assumption; [lia|apply P1, Hi]. }
      assert (L' : loc (S i) q T).
      { destruct LL0 as (j & A1 & A2 & _), LT as (j2 & B1 & B2 & _). exists (j2 + S j)%nat. split; [|split; [|lia]].
        - intros j' Hj'. destruct (Nat.lt_ge_cases j' j) as [C|C]; [specialize (A1 j' C); lia|].
          destruct (Nat.eq_dec j' j) as [->|C2]; [lia|]. replace j' with ((j' - S j) + S j)%nat by lia. rewrite iter_add_.
          change (Nat.iter (S j) p q) with (p (Nat.iter j p q)). rewrite A2. specialize (B1 (j' - S j)%nat ltac:(lia)). lia.
        - rewrite iter_add_. change (Nat.iter (S j) p q) with (p (Nat.iter j p q)). rewrite A2. exact B2. }
      rewrite (loc_fun _ _ _ _ Lq L'), MT. apply (B q i Hq Uq' LL0).
    + assert (LG : (i < L0)%nat) by (destruct LL0 as (j & _ & _ & X); lia).
      assert (L' : loc (S i) q L0).
      { destruct LL0 as (j & A1 & A2 & _). exists j. split; [intros j' Hj'; specialize (A1 j' Hj'); lia|]. split; [exact A2|lia]. }
      rewrite (loc_fun _ _ _ _ Lq L').
      assert (TL : T <> L0). { intros ->. apply Nq. apply (loc_inj i q (p i) L0); try assumption; [lia|apply P1, Hi]. }
      rewrite MO by lia. apply (B q L0 Hq Uq' LL0).
  - exists mem'. split; [exact E|]. split; [exact X|]. intros a Ha. rewrite Y by exact Ha. apply MO; lia.
Qed.
End Permute.

(** *** The factory *)
Section Graph.
Variables (n m : nat) (es : list (nat * nat)) (ew : option (nat -> Z)) (nw : option (nat -> Z)).
(** The two endpoints in the order of the code, so that Construct.v's bookkeeping of positions applies
    (degree counting :122-151, prefix sum :155-156, fetch_add :165-171: same code with pins[0], pins[1]). *)
Definition gevs : list (list nat) := map (fun ab => [fst ab; snd ab]) es.
(** :104-113, :126-137; the checks of all edges happen before anything is stored *)
Definition gcheck (ab : nat * nat) : bool := negb (Nat.eqb (fst ab) (snd ab)) && (fst ab <? n)%nat && (snd ab <? n)%nat.
(** :175-188: what iteration (e, i) stores at its position; i = 0 is edge0, i = 1 is edge1.  Weight 1 by default (static_graph.h, Edge()) *)
Definition record_of (x : nat * nat) : gedge :=
  mkGE (pin_of gevs x) (pin_of gevs (fst x, (1 - snd x)%nat)) (fst x) (weight_or_one ew (fst x)).

(** [gs]: counting/ticket/write schedule; [gp v]: the index order std::sort leaves for node v; [go]: order in which nodes are sorted. *)
Record gsched := mkGS { gs : ksched; gp : nat -> list nat; go : list nat }.
Definition edge_array (s : gsched) (mem : nat -> gedge) : nat -> gedge :=
  write_list mem (map (fun x => ((net_start gevs (gs s) (pin_of gevs x) + ticket gevs (k_fa (gs s)) x)%nat, record_of x)) (k_wr (gs s))).
Definition gdeg (s : gsched) (v : nat) : nat := count gevs (k_threads (gs s)) v.
Definition grange (s : gsched) (mem : nat -> gedge) (v : nat) : list gedge := map mem (seq (net_start gevs (gs s) v) (gdeg s v)).
(** :48-66 for one node *)
Definition sort_node (s : gsched) (mem : nat -> gedge) (v : nat) : option (nat -> gedge) :=
  permute (fun i => nth i (gp s v) 0%nat) (gdeg s v) 0 (net_start gevs (gs s) v) mem.
(** What std::sort guarantees (:53-55): a permutation of 0..deg-1, sorted by the target of the edge at that index. *)
Definition gsched_ok (s : gsched) (mem : nat -> gedge) : Prop :=
  ksched_ok m gevs (gs s) /\ Permutation (go s) (seq 0 n) /\
  forall v, (v < n)%nat -> Permutation (gp s v) (seq 0 (gdeg s v)) /\
    StronglySorted le (map (fun i => g_tgt (edge_array s mem (net_start gevs (gs s) v + i)%nat)) (gp s v)).
(** construct_from_graph_edges with stable_construction_of_incident_edges = true *)
Definition construct_graph (s : gsched) (mem : nat -> gedge) : option graph :=
  if (Z.of_nat m <=? MAX32 / 2) && (length es =? m)%nat && forallb gcheck es then
    match fold_opt (sort_node s) (edge_array s mem) (go s) with
    | Some a => Some (mkG n (grange s a) (weight_or_one nw))
    | None => None
    end
  else None.
End Graph.

(** mt_kahypar_create_graph: overflow checks of all endpoints (mtkahypar.cpp:342-346), of n and m (lib_helper_functions.h:390-391) *)
Definition create_graph (n m : nat) (ends : nat -> nat) (ew nw : option (nat -> Z)) (s : gsched) (mem : nat -> gedge) : option graph :=
  let es := map (fun e => (ends (2 * e)%nat, ends (2 * e + 1)%nat)) (seq 0 m) in
  if forallb (fun ab => fits (fst ab) && fits (snd ab)) es && fits n && fits m
  then construct_graph n m es ew nw s mem else None.
(** StaticGraphFactory::construct (from hyperedges), :70-91 *)
Definition construct_graph_from_hyperedges (n m : nat) (hes : list (list nat)) (ew nw : option (nat -> Z)) (s : gsched) (mem : nat -> gedge) : option graph :=
  if forallb (fun e => (length e =? 2)%nat) hes
  then construct_graph n m (map (fun e => (nth 0 e 0%nat, nth 1 e 0%nat)) hes) ew nw s mem else None.

(** ---- proofs ---- *)
Section GraphProofs.
Variables (n m : nat) (es : list (nat * nat)) (ew : option (nat -> Z)) (nw : option (nat -> Z)).
Notation gev := (gevs es).
Variables (s : gsched) (mem : nat -> gedge).
Hypothesis OK : gsched_ok n m es ew s mem.

Definition adj0 (v : nat) : list gedge := map (record_of es ew) (filter (fun x => Nat.eqb (pin_of gev x) v) (k_fa (gs s))).
Lemma adj0_length v : length (adj0 v) = gdeg es s v.
Proof. destruct OK as (K & _). unfold adj0, gdeg. rewrite map_length, <- (nets_length m gev (gs s) K v). unfold nets. rewrite map_length. reflexivity. Qed.

Lemma edge_array_range v : grange es s (edge_array es ew s mem) v = adj0 v.
Proof.
  destruct OK as (K & _). pose proof K as (_ & B & C). unfold grange. rewrite <- adj0_length. rewrite (net_start_eq m gev (gs s) K). unfold edge_array.
  assert (NF : NoDup (k_fa (gs s))) by (apply (Permutation_NoDup (Permutation_sym B)), events_nodup).
  assert (FW : forall x, In x (k_wr (gs s)) <-> In x (k_fa (gs s))).
  { intros x. split; intros Hx; [apply (Permutation_in _ (Permutation_sym B)), (Permutation_in _ C), Hx|apply (Permutation_in _ (Permutation_sym C)), (Permutation_in _ B), Hx]. }
  apply (fill_range (record_of es ew (0%nat, 0%nat))).
  - intros j Hj. unfold adj0 in Hj. rewrite map_length in Hj. destruct (ticket_of_nth gev (k_fa (gs s)) v j NF Hj) as (X1 & X2 & X3).
    set (x := nth j (filter _ (k_fa (gs s))) (0%nat, 0%nat)) in *. apply in_map_iff. exists x. split; [|apply FW, X1].
    rewrite X2, X3, (net_start_eq m gev (gs s) K). f_equal. unfold adj0. rewrite map_nth. reflexivity.
  - intros a e1 e2 H1 H2. apply in_map_iff in H1, H2. destruct H1 as (x & E1 & Hx), H2 as (y & E2 & Hy).
    injection E1 as E1 <-. injection E2 as E2 <-. rewrite <- E2, !(net_start_eq m gev (gs s) K) in E1.
    apply FW in Hx, Hy. destruct (ticket_nth gev (k_fa (gs s)) x NF Hx) as [A1 B1]. destruct (ticket_nth gev (k_fa (gs s)) y NF Hy) as [A2 B2].
    destruct (start_inj (nets gev (gs s)) (pin_of gev x) (pin_of gev y) _ _ ltac:(unfold nets; rewrite map_length; exact A1) ltac:(unfold nets; rewrite map_length; exact A2) E1) as [Ep Et].
    rewrite <- Ep, <- Et, B1 in B2. rewrite B2. reflexivity.
Qed.

Lemma map_nth_seq_ (l : list nat) : map (fun i => nth i l 0%nat) (seq 0 (length l)) = l.
Proof.
  apply nth_ext with (d := 0%nat) (d' := 0%nat); [rewrite map_length, seq_length; reflexivity|]. intros j Hj. rewrite map_length, seq_length in Hj.
  rewrite nth_indep with (d' := (fun i => nth i l 0%nat) 0%nat) by (rewrite map_length, seq_length; exact Hj).
  rewrite (map_nth (fun i => nth i l 0%nat)), seq_nth by exact Hj. reflexivity.
Qed.
Lemma perm_seq_fun (l : list nat) k : Permutation l (seq 0 k) ->
  (forall i, (i < k)%nat -> (nth i l 0 < k)%nat) /\ (forall i j, (i < k)%nat -> (j < k)%nat -> nth i l 0%nat = nth j l 0%nat -> i = j).
Proof.
  intros P. assert (L : length l = k) by (rewrite (Permutation_length P), seq_length; reflexivity). split.
  - intros i Hi. assert (In (nth i l 0%nat) (seq 0 k)) as X by (apply (Permutation_in _ P), nth_In; lia). apply in_seq in X. lia.
  - assert (N : NoDup l) by (apply (Permutation_NoDup (Permutation_sym P)), seq_NoDup). rewrite NoDup_nth with (d := 0%nat) in N.
    intros i j Hi Hj. apply N; lia.
Qed.

(** After sorting any duplicate-free list of nodes. *)
Lemma sort_nodes_spec ns : NoDup ns -> (forall v, In v ns -> (v < n)%nat) -> forall a, 
  (forall v, In v ns -> grange es s a v = adj0 v) ->
  exists a', fold_opt (sort_node es s) a ns = Some a' /\
    (forall v, In v ns -> grange es s a' v = map (fun i => nth i (adj0 v) ge0) (gp s v)) /\
    (forall v, ~ In v ns -> grange es s a' v = grange es s a v).
Proof.
  destruct OK as (K & _ & PP). induction ns as [|u ns IH]; intros N R a A.
  { exists a. split; [reflexivity|]. split; [intros v []|reflexivity]. }
  apply NoDup_cons_iff in N. destruct N as [Nu N]. cbn [fold_opt].
  destruct (PP u (R u (or_introl eq_refl))) as [P1 _]. destruct (perm_seq_fun _ _ P1) as [Q1 Q2].
  assert (Au : forall L, (L < gdeg es s u)%nat -> a (net_start gev (gs s) u + L)%nat = nth L (adj0 u) ge0).
  { intros L HL. rewrite <- (A u (or_introl eq_refl)). unfold grange.
    rewrite nth_indep with (d' := a 0%nat) by (rewrite map_length, seq_length; exact HL). rewrite (map_nth a), seq_nth by exact HL. reflexivity. }
  destruct (permute_correct (fun i => nth i (gp s u) 0%nat) (gdeg es s u) Q1 Q2 (fun q => nth q (adj0 u) ge0) (net_start gev (gs s) u) (gdeg es s u) 0 a) as (a1 & E1 & B1 & C1).
  - lia.
  - intros j Hj. lia.
  - intros q L Hq _ LL. assert (L = q). { destruct LL as (j & X & Y & _). destruct j; [symmetry; exact Y|specialize (X 0%nat ltac:(lia)); lia]. }
    subst L. apply Au, Hq.
  - unfold sort_node at 1. rewrite E1.
    assert (FR : forall v, v <> u -> grange es s a1 v = grange es s a v).
    { intros v Hv. unfold grange. apply map_ext_in. intros q Hq. apply in_seq in Hq. apply C1.
      assert (NL : forall w, gdeg es s w = length (nets gev (gs s) w)) by (intros w; symmetry; apply (nets_length m gev (gs s) K)).
      rewrite !(net_start_eq m gev (gs s) K) in *. rewrite !NL in *.
      destruct (Nat.lt_total u v) as [D|[D|D]]; [|congruence|]; pose proof (start_mono (nets gev (gs s)) _ _ D); lia. }
    destruct (IH N (fun v Hv => R v (or_intror Hv)) a1) as (a' & E' & B' & C').
    { intros v Hv. rewrite FR by (intros ->; contradiction). apply A. right. exact Hv. }
    exists a'. split; [exact E'|]. split.
    + intros v [<-|Hv]; [|apply B', Hv]. rewrite C' by exact Nu. unfold grange.
      assert (LG : length (gp s u) = gdeg es s u) by (rewrite (Permutation_length P1), seq_length; reflexivity).
      rewrite <- (map_nth_seq_ (gp s u)) at 1. rewrite LG, map_map.
      apply nth_ext with (d := ge0) (d' := ge0); [rewrite !map_length, !seq_length; reflexivity|]. intros j Hj. rewrite map_length, seq_length in Hj.
      rewrite nth_indep with (d' := a1 0%nat) by (rewrite map_length, seq_length; exact Hj).
      rewrite (map_nth a1), seq_nth by exact Hj.
      rewrite nth_indep with (d' := (fun x => nth (nth x (gp s u) 0%nat) (adj0 u) ge0) 0%nat) by (rewrite map_length, seq_length; exact Hj).
      rewrite (map_nth (fun x => nth (nth x (gp s u) 0%nat) (adj0 u) ge0)), seq_nth by exact Hj. apply B1, Hj.
    + intros v Hv. rewrite C' by (intros C; apply Hv; right; exact C). apply FR. intros ->. apply Hv. left. reflexivity.
Qed.

Lemma construct_graph_run : Z.of_nat m <= MAX32 / 2 -> length es = m -> forallb (gcheck n) es = true ->
  exists G, construct_graph n m es ew nw s mem = Some G /\ g_n G = n /\ g_nw G = weight_or_one nw /\
    forall v, (v < n)%nat -> Permutation (g_adj G v) (adj0 v) /\ StronglySorted le (map g_tgt (g_adj G v)).
Proof.
  intros M L C. pose proof OK as (K & GO & PP). unfold construct_graph. rewrite (proj2 (Z.leb_le _ _) M), L, Nat.eqb_refl, C. cbn [andb].
  destruct (sort_nodes_spec (go s)) with (a := edge_array es ew s mem) as (a' & E & B & _).
  - apply (Permutation_NoDup (Permutation_sym GO)), seq_NoDup.
  - intros v Hv. apply (Permutation_in _ GO), in_seq in Hv. lia.
  - intros v _. apply edge_array_range.
  - rewrite E. eexists. split; [reflexivity|]. split; [reflexivity|]. split; [reflexivity|]. intros v Hv. cbn [g_adj].
    rewrite B by (apply (Permutation_in _ (Permutation_sym GO)), in_seq; lia). destruct (PP v Hv) as [P1 P2]. split.
    + rewrite P1. match goal with |- Permutation ?x ?y => assert (X : x = y); [|rewrite X; reflexivity] end.
      apply nth_ext with (d := ge0) (d' := ge0); [rewrite map_length, seq_length; symmetry; apply adj0_length|]. intros j Hj. rewrite map_length, seq_length in Hj.
      rewrite nth_indep with (d' := (fun x => nth x (adj0 v) ge0) 0%nat) by (rewrite map_length, seq_length; exact Hj).
      rewrite (map_nth (fun x => nth x (adj0 v) ge0)), seq_nth by exact Hj. reflexivity.
    + rewrite map_map. erewrite map_ext_in; [exact P2|]. intros i Hi. cbn beta.
      apply (Permutation_in _ P1), in_seq in Hi. rewrite <- edge_array_range. unfold grange.
      rewrite nth_indep with (d' := edge_array es ew s mem 0%nat) by (rewrite map_length, seq_length; lia).
      rewrite (map_nth (edge_array es ew s mem)), seq_nth by lia. reflexivity.
Qed.
End GraphProofs.

(** What the user asked for. *)
Definition valid_graph_input (n m : nat) (es : list (nat * nat)) : Prop :=
  Z.of_nat m <= 2 ^ 31 - 1 /\ length es = m /\ forall a b, In (a, b) es -> a <> b /\ (a < n)%nat /\ (b < n)%nat.
(** Record [r] describes input edge number [g_uid r] seen from endpoint [v]. *)
Definition describes (es : list (nat * nat)) (ew : option (nat -> Z)) (v : nat) (r : gedge) : Prop :=
  (nth_error es (g_uid r) = Some (v, g_tgt r) \/ nth_error es (g_uid r) = Some (g_tgt r, v)) /\
  g_src r = v /\ g_w r = weight_or_one ew (g_uid r).
Definition graph_is (n : nat) (es : list (nat * nat)) (ew nw : option (nat -> Z)) (G : graph) : Prop :=
  g_n G = n /\ (forall v, g_nw G v = weight_or_one nw v) /\
  forall v, (v < n)%nat ->
    (forall r, In r (g_adj G v) <-> describes es ew v r) /\ NoDup (map g_uid (g_adj G v)) /\ StronglySorted le (map g_tgt (g_adj G v)).

Lemma adj0_describes n m es ew s mem v : gsched_ok n m es ew s mem -> length es = m -> (forall a b, In (a, b) es -> a <> b) ->
  (forall r, In r (adj0 es ew s v) <-> describes es ew v r) /\ NoDup (map g_uid (adj0 es ew s v)).
Proof.
  intros (K & _) L D. destruct K as (_ & B & _).
  assert (EV : forall e, (e < m)%nat -> exists a b, nth_error es e = Some (a, b) /\ a <> b /\ ev (gevs es) e = [a; b]).
  { intros e He. destruct (nth_error es e) as [[a b]|] eqn:E; [|apply nth_error_None in E; lia]. exists a, b. split; [reflexivity|].
    split; [apply D, (nth_error_In _ _ E)|]. unfold ev, gevs. apply nth_error_nth. rewrite nth_error_map, E. reflexivity. }
  assert (INF : forall x, In x (k_fa (gs s)) <-> (fst x < m)%nat /\ (snd x < length (ev (gevs es) (fst x)))%nat).
  { intros x. rewrite <- in_events. split; intros Hx; [apply (Permutation_in _ B), Hx|apply (Permutation_in _ (Permutation_sym B)), Hx]. }
  split.
  - intros r. unfold adj0. rewrite in_map_iff. split.
    + intros ((e, i) & <- & Hx). apply filter_In in Hx. destruct Hx as [Hx Hv]. apply Nat.eqb_eq in Hv. apply INF in Hx. cbn [fst snd] in Hx.
      destruct (EV e (proj1 Hx)) as (a & b & E1 & E2 & E3). rewrite E3 in Hx. cbn [length] in Hx. unfold describes, record_of. cbn [g_uid g_src g_tgt g_w fst snd].
      unfold pin_of in *. cbn [fst snd] in *. rewrite E3 in *. split; [|split; [exact Hv|reflexivity]].
      destruct i as [|[|i]]; [left|right|lia]; rewrite E1; cbn in *; congruence.
    + intros (X & Y & Z1). destruct r as [sr tr e w]. cbn [g_uid g_src g_tgt g_w] in *. subst sr w.
      assert (He : (e < m)%nat) by (rewrite <- L; apply nth_error_Some; destruct X as [X|X]; rewrite X; discriminate).
      destruct (EV e He) as (a & b & E1 & E2 & E3).
      destruct X as [X|X]; rewrite X in E1; injection E1 as -> ->.
      * exists (e, 0%nat). split; [unfold record_of, pin_of; cbn [fst snd Nat.sub]; rewrite E3; reflexivity|].
        apply filter_In. split; [apply INF; cbn [fst snd]; rewrite E3; cbn [length]; lia|]. unfold pin_of. cbn [fst snd]. rewrite E3. apply Nat.eqb_refl.
      * exists (e, 1%nat). split; [unfold record_of, pin_of; cbn [fst snd Nat.sub]; rewrite E3; reflexivity|].
        apply filter_In. split; [apply INF; cbn [fst snd]; rewrite E3; cbn [length]; lia|]. unfold pin_of. cbn [fst snd]. rewrite E3. apply Nat.eqb_refl.
  - unfold adj0. rewrite map_map. cbn [record_of g_uid].
    assert (NF : NoDup (k_fa (gs s))) by (apply (Permutation_NoDup (Permutation_sym B)), events_nodup).
    assert (G : forall l, NoDup l -> incl l (k_fa (gs s)) -> (forall x, In x l -> pin_of (gevs es) x = v) -> NoDup (map fst l)).
    { induction l as [|x l IH]; intros N I P; [constructor|]. apply NoDup_cons_iff in N. destruct N as [Nx N]. cbn [map]. constructor.
      - intros C. apply in_map_iff in C. destruct C as (y & E & Hy). apply Nx. assert (x = y); [|subst; exact Hy].
        pose proof (P x (or_introl eq_refl)) as Px. pose proof (P y (or_intror Hy)) as Py.
        pose proof (proj1 (INF x) (I x (or_introl eq_refl))) as Ix. pose proof (proj1 (INF y) (I y (or_intror Hy))) as Iy.
        destruct x as [e i], y as [e' i']. cbn [fst snd] in *. subst e'. destruct (EV e (proj1 Ix)) as (a & b & E1 & E2 & E3).
        unfold pin_of in *. cbn [fst snd] in *. rewrite E3 in *. cbn [length] in *.
        destruct i as [|[|i]], i' as [|[|i']]; cbn in *; try lia; try reflexivity; congruence.
      - apply IH; [exact N|intros y Hy; apply I; right; exact Hy|intros y Hy; apply P; right; exact Hy]. }
    apply G; [apply NoDup_filter, NF|intros x Hx; apply filter_In in Hx; apply Hx|].
    intros x Hx. apply filter_In in Hx. apply Nat.eqb_eq, Hx.
Qed.

(** C37 *)
Theorem C37_construct_graph n m es ew nw s mem : gsched_ok n m es ew s mem ->
  (construct_graph n m es ew nw s mem <> None <-> valid_graph_input n m es) /\
  (forall G, construct_graph n m es ew nw s mem = Some G -> graph_is n es ew nw G).
Proof.
  intros OK. assert (CH : forallb (gcheck n) es = true <-> forall a b, In (a, b) es -> a <> b /\ (a < n)%nat /\ (b < n)%nat).
  { rewrite forallb_forall. unfold gcheck. split.
    - intros F a b Hab. specialize (F _ Hab). cbn [fst snd] in F. rewrite !andb_true_iff, negb_true_iff, Nat.eqb_neq, !Nat.ltb_lt in F. tauto.
    - intros F [a b] Hab. specialize (F a b Hab). cbn [fst snd]. rewrite !andb_true_iff, negb_true_iff, Nat.eqb_neq, !Nat.ltb_lt. tauto. }
  assert (MM : MAX32 / 2 = 2 ^ 31 - 1) by reflexivity.
  split.
  - split.
    + unfold construct_graph, valid_graph_input. intros X. destruct (_ && _ && _) eqn:E; [|congruence]. rewrite !andb_true_iff in E. destruct E as [[E1 E2] E3].
      apply Nat.eqb_eq in E2. split; [lia|]. split; [exact E2|]. apply CH, E3.
    + intros (V1 & V2 & V3). destruct (construct_graph_run n m es ew nw s mem OK) as (G & E & _); [lia|exact V2|apply CH, V3|]. rewrite E. discriminate.
  - intros G E. assert (V : Z.of_nat m <= MAX32 / 2 /\ length es = m /\ forallb (gcheck n) es = true).
    { unfold construct_graph in E. destruct (_ && _ && _) eqn:F; [|discriminate]. rewrite !andb_true_iff in F. destruct F as [[F1 F2] F3].
      apply Nat.eqb_eq in F2. split; [lia|]. auto. }
    destruct V as (V1 & V2 & V3). destruct (construct_graph_run n m es ew nw s mem OK V1 V2 V3) as (G' & E' & A & B & C).
    rewrite E in E'. injection E' as <-. split; [exact A|]. split; [intros v; rewrite B; reflexivity|]. intros v Hv. destruct (C v Hv) as [C1 C2].
    destruct (adj0_describes n m es ew s mem v OK V2) as [D1 D2]; [intros a b Hab; apply CH with (b := b); assumption|].
    split; [|split; [|exact C2]].
    + intros r. rewrite <- D1. split; intros Hr; [apply (Permutation_in _ C1), Hr|apply (Permutation_in _ (Permutation_sym C1)), Hr].
    + apply (Permutation_NoDup (Permutation_sym (Permutation_map g_uid C1)) D2).
Qed.

(** The C function: endpoint array [ends]. *)
Theorem C37_create_graph n m ends ew nw s mem :
  let es := map (fun e => (ends (2 * e)%nat, ends (2 * e + 1)%nat)) (seq 0 m) in
  gsched_ok n m es ew s mem ->
  (create_graph n m ends ew nw s mem <> None <->
     Z.of_nat n <= 2 ^ 32 - 1 /\ Z.of_nat m <= 2 ^ 31 - 1 /\
     forall e, (e < m)%nat -> ends (2 * e)%nat <> ends (2 * e + 1)%nat /\ (ends (2 * e) < n)%nat /\ (ends (2 * e + 1) < n)%nat) /\
  (forall G, create_graph n m ends ew nw s mem = Some G -> graph_is n es ew nw G).
Proof.
  intros es OK. destruct (C37_construct_graph n m es ew nw s mem OK) as [A B]. unfold create_graph. fold es. unfold fits, MAX32.
  assert (IE : forall a b, In (a, b) es <-> exists e, (e < m)%nat /\ a = ends (2 * e)%nat /\ b = ends (2 * e + 1)%nat).
  { intros a b. unfold es. rewrite in_map_iff. split.
    - intros (e & E & He). apply in_seq in He. injection E as <- <-. exists e. split; [lia|auto].
    - intros (e & He & -> & ->). exists e. split; [reflexivity|apply in_seq; lia]. }
  split; [|intros G; destruct (_ && _ && _); [apply B|discriminate]]. split.
  - intros X. destruct (forallb _ es && _ && _) eqn:E; [|congruence]. rewrite !andb_true_iff in E. apply A in X. destruct X as (X1 & X2 & X3).
    split; [lia|]. split; [exact X1|]. intros e He. apply X3, IE. exists e. auto.
  - intros (N & M & F). assert (V : forall a b, In (a, b) es -> a <> b /\ (a < n)%nat /\ (b < n)%nat).
    { intros a b Hab. apply IE in Hab. destruct Hab as (e & He & -> & ->). apply F, He. }
    assert (X : forallb (fun ab => (Z.of_nat (fst ab) <=? 2 ^ 32 - 1) && (Z.of_nat (snd ab) <=? 2 ^ 32 - 1)) es = true).
    { apply forallb_forall. intros [a b] Hab. cbn [fst snd]. destruct (V a b Hab) as (_ & V2 & V3). lia. }
    rewrite X. rewrite (proj2 (Z.leb_le (Z.of_nat n) _)) by lia. rewrite (proj2 (Z.leb_le (Z.of_nat m) _)) by lia. cbn [andb]. apply A.
    split; [exact M|]. split; [unfold es; rewrite map_length, seq_length; reflexivity|exact V].
Qed.

(** From hyperedges: accepted only if every hyperedge has exactly two pins. *)
Theorem C37_graph_from_hyperedges n m hes ew nw s mem :
  let es := map (fun e => (nth 0 e 0%nat, nth 1 e 0%nat)) hes in
  gsched_ok n m es ew s mem ->
  (construct_graph_from_hyperedges n m hes ew nw s mem <> None <-> (forall e, In e hes -> length e = 2%nat) /\ valid_graph_input n m es) /\
  (forall G, construct_graph_from_hyperedges n m hes ew nw s mem = Some G -> graph_is n es ew nw G).
Proof.
  intros es OK. destruct (C37_construct_graph n m es ew nw s mem OK) as [A B]. unfold construct_graph_from_hyperedges. fold es.
  assert (F : forallb (fun e => (length e =? 2)%nat) hes = true <-> forall e, In e hes -> length e = 2%nat).
  { rewrite forallb_forall. split; intros X e He; [apply Nat.eqb_eq, X, He|apply Nat.eqb_eq, X, He]. }
  destruct (forallb _ hes) eqn:E.
  - split; [|exact B]. rewrite A. split; [intros X; split; [apply F; reflexivity|exact X]|tauto].
  - split; [|discriminate]. split; [congruence|]. intros [X _]. apply F in X. discriminate.
Qed.

Lemma sorted_perm_unique l1 l2 : StronglySorted le (map g_tgt l1) -> StronglySorted le (map g_tgt l2) -> (forall r, In r l1 <-> In r l2) ->
  NoDup (map g_uid l1) -> NoDup (map g_uid l2) -> (forall r r', In r l1 -> In r' l1 -> g_tgt r = g_tgt r' -> r = r') -> l1 = l2.
Proof.
  revert l2. induction l1 as [|a l1 IH]; intros l2 S1 S2 E N1 N2 U.
  - destruct l2 as [|b l2]; [reflexivity|]. exfalso. apply (proj2 (E b)). left. reflexivity.
  - destruct l2 as [|b l2]; [exfalso; apply (proj1 (E a)); left; reflexivity|]. cbn [map] in *.
    inversion S1 as [|? ? S1' F1]; inversion S2 as [|? ? S2' F2]; subst. apply NoDup_cons_iff in N1, N2. destruct N1 as [Na N1], N2 as [Nb N2].
    assert (ab : a = b).
    { rewrite Forall_forall in F1, F2. apply U; [left; reflexivity|apply E; left; reflexivity|].
      assert (Hb : In b (a :: l1)) by (apply E; left; reflexivity). assert (Ha : In a (b :: l2)) by (apply E; left; reflexivity).
      destruct Hb as [->|Hb]; [reflexivity|]. destruct Ha as [->|Ha]; [reflexivity|].
      apply (in_map g_tgt) in Hb, Ha. specialize (F1 _ Hb). specialize (F2 _ Ha). lia. }
    subst b. f_equal. apply IH; try assumption.
    + intros r. split; intros Hr.
      * destruct (proj1 (E r) (or_intror Hr)) as [<-|X]; [exfalso; apply Na, in_map, Hr|exact X].
      * destruct (proj2 (E r) (or_intror Hr)) as [<-|X]; [exfalso; apply Nb, in_map, Hr|exact X].
    + intros r r' Hr Hr'. apply U; right; assumption.
Qed.

(** Without parallel edges the result does not depend on the schedule. *)
Theorem C37_schedule_independent n m es ew nw s1 mem1 s2 mem2 G1 G2 :
  (forall e1 e2 a b, nth_error es e1 = Some (a, b) -> nth_error es e2 = Some (a, b) \/ nth_error es e2 = Some (b, a) -> e1 = e2) ->
  gsched_ok n m es ew s1 mem1 -> gsched_ok n m es ew s2 mem2 ->
  construct_graph n m es ew nw s1 mem1 = Some G1 -> construct_graph n m es ew nw s2 mem2 = Some G2 ->
  forall v, (v < n)%nat -> g_adj G1 v = g_adj G2 v.
Proof.
  intros NP O1 O2 E1 E2 v Hv.
  destruct (proj2 (C37_construct_graph n m es ew nw s1 mem1 O1) G1 E1) as (_ & _ & A1).
  destruct (proj2 (C37_construct_graph n m es ew nw s2 mem2 O2) G2 E2) as (_ & _ & A2).
  destruct (A1 v Hv) as (B1 & C1 & D1). destruct (A2 v Hv) as (B2 & C2 & D2).
  apply sorted_perm_unique; try assumption; [intros r; rewrite B1, B2; reflexivity|].
  intros r r' Hr Hr' T. apply B1 in Hr, Hr'. destruct Hr as (X & Y & Z1), Hr' as (X' & Y' & Z1').
  assert (U : g_uid r = g_uid r').
  { rewrite <- T in X'. destruct X as [X|X]; apply (NP _ _ _ _ X); destruct X' as [X'|X']; auto. }
  destruct r, r'. cbn in *. congruence.
Qed.

(** Finding: with parallel edges (here two edges {0,1} of weight 1 and 2) the order of the incident edges depends on the
    schedule, although the code sorts them "so their ordering is independent of scheduling" (:45-46). *)
Definition gx_es : list (nat * nat) := [(0,1);(0,1)]%nat.
Definition gx_w : option (nat -> Z) := Some (fun e => 1 + Z.of_nat e).
Definition gx_s (fa : list (nat * nat)) : gsched := mkGS (mkKS [[0;1]]%nat fa fa) (fun v => if (v <? 2)%nat then [0;1]%nat else []) [0;1]%nat.
Theorem C37_refuted_parallel_edges :
  exists n m es ew nw s1 s2 mem G1 G2, valid_graph_input n m es /\ gsched_ok n m es ew s1 mem /\ gsched_ok n m es ew s2 mem /\
    construct_graph n m es ew nw s1 mem = Some G1 /\ construct_graph n m es ew nw s2 mem = Some G2 /\ g_adj G1 0%nat <> g_adj G2 0%nat.
Proof.
  assert (OK : forall fa, Permutation fa (events 2 (gevs gx_es)) ->
    (forall v, (v < 2)%nat -> map (fun i => g_tgt (edge_array gx_es gx_w (gx_s fa) (fun _ => ge0) (net_start (gevs gx_es) (gs (gx_s fa)) v + i)%nat)) [0;1]%nat = [(1 - v)%nat; (1 - v)%nat]) ->
    gsched_ok 2 2 gx_es gx_w (gx_s fa) (fun _ => ge0)).
  { intros fa P T. split; [|split].
    - split; [vm_compute; reflexivity|]. split; exact P.
    - reflexivity.
    - intros v Hv. assert (Ev : gp (gx_s fa) v = [0;1]%nat) by (destruct v as [|[|v]]; [reflexivity|reflexivity|lia]). rewrite Ev. split.
      + destruct v as [|[|v]]; [reflexivity|reflexivity|lia].
      + rewrite T by exact Hv. repeat constructor. }
  exists 2%nat, 2%nat, gx_es, gx_w, None, (gx_s [(0,0);(0,1);(1,0);(1,1)]%nat), (gx_s [(1,0);(0,0);(0,1);(1,1)]%nat), (fun _ => ge0).
  eexists. eexists. split; [|split; [|split; [|split; [|split]]]].
  - split; [lia|]. split; [reflexivity|]. intros a b [E|[E|[]]]; injection E as <- <-; lia.
  - apply OK; [reflexivity|]. intros v Hv. destruct v as [|[|v]]; [vm_compute; reflexivity|vm_compute; reflexivity|lia].
  - apply OK; [|intros v Hv; destruct v as [|[|v]]; [vm_compute; reflexivity|vm_compute; reflexivity|lia]].
    apply NoDup_Permutation; [repeat constructor; simpl; intuition congruence|apply events_nodup|]. intros x. vm_compute. tauto.
  - unfold construct_graph. cbn -[grange]. reflexivity.
  - unfold construct_graph. cbn -[grange]. reflexivity.
  - vm_compute. discriminate.
Qed.

(** Non-trivial instance: triangle plus a pendant edge, unsorted input, two threads. *)
Definition gy_ends (i : nat) : nat := nth i [2;0; 3;0; 1;2; 0;1]%nat 0%nat.
Definition gy_s : gsched := mkGS
  (mkKS [[1;3];[0;2]]%nat [(3,0);(1,0);(1,1);(2,1);(0,1);(0,0);(3,1);(2,0)]%nat [(0,0);(2,1);(1,0);(3,0);(1,1);(2,0);(3,1);(0,1)]%nat)
  (fun v => nth v [[0;2;1]; [0;1]; [1;0]; [0]]%nat []) [3;0;2;1]%nat.
Example ex_create_graph :
  match create_graph 4 4 gy_ends (Some (fun e => 5 + Z.of_nat e)) None gy_s (fun _ => ge0) with
  | Some G => map (fun v => map (fun r => (Z.of_nat (g_tgt r), Z.of_nat (g_uid r), g_w r)) (g_adj G v)) [0;1;2;3]%nat =
      [[(1,3,8);(2,0,5);(3,1,6)]; [(0,3,8);(2,2,7)]; [(0,0,5);(1,2,7)]; [(0,1,6)]]
  | None => False
  end.
Proof. vm_compute. reflexivity. Qed.
Example ex_gsched_ok : gsched_ok 4 4 (map (fun e => (gy_ends (2 * e)%nat, gy_ends (2 * e + 1)%nat)) (seq 0 4)) (Some (fun e => 5 + Z.of_nat e)) gy_s (fun _ => ge0).
Proof.
  split; [|split].
  - split; [|split].
    + apply NoDup_Permutation; [repeat constructor; simpl; intuition congruence|apply seq_NoDup|]. intros x. vm_compute. tauto.
    + apply NoDup_Permutation; [repeat constructor; simpl; intuition congruence|apply events_nodup|]. intros x. vm_compute. tauto.
    + apply NoDup_Permutation; [repeat constructor; simpl; intuition congruence|apply events_nodup|]. intros x. vm_compute. tauto.
  - apply NoDup_Permutation; [repeat constructor; simpl; intuition congruence|apply seq_NoDup|]. intros x. vm_compute. tauto.
  - intros v Hv. do 4 (destruct v as [|v]; [split; [apply NoDup_Permutation; [vm_compute; repeat constructor; simpl; intuition congruence|apply seq_NoDup|intros x; vm_compute; tauto]|vm_compute; repeat constructor]|]). lia.
Qed.
