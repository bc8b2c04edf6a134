(** Delta.v - model of DeltaPartitionedHypergraph (mt-kahypar/datastructures/delta_partitioned_hypergraph.h) with
    maintain_connectivity_set = true, and of DeltaConnectivitySet (delta_connectivity_set.h), relative to an
    unchanged shared partition.
    The hash maps (DynamicFlatMap, modelled separately in FlatMap.v) are finite maps.  The key of a pin count delta,
    e * _k + p, is computed by the code in 32-bit unsigned arithmetic: HyperedgeID is uint32_t and PartitionID is
    int, so the product and the sum are reduced modulo 2^32 before the conversion to the map's size_t key. *)
From Verif Require Import Base Spec SpecLemmas WfCheck PHG PHGProofs Objective PropsA.

(** Members, delta_partitioned_hypergraph.h:352-375; [d_cs e p] is the bit of the thread-local xor bitset
    (delta_connectivity_set.h:238-249 toggle, missing entries are zero). *)
Record delta := mkD { d_k : nat; d_w : nat -> Z; d_part : nat -> option nat; d_pc : Z -> option Z; d_cs : nat -> nat -> bool }.
(** Constructor :79-88 and clear() :282-289. *)
Definition d_init (k : nat) : delta := mkD k (fun _ => 0) (fun _ => None) (fun _ => None) (fun _ _ => false).
Definition d_clear (d : delta) : delta := d_init (d_k d).

Definition d_key (k e p : nat) : Z := (Z.of_nat e * Z.of_nat k + Z.of_nat p) mod 2 ^ 32.
Definition d_default (o : option Z) : Z := match o with Some x => x | None => 0 end.

(** partID :235-239, partWeight :248-252, pinCountInPart :255-261. *)
Definition d_partID (s : phg) (d : delta) (u : nat) : option nat :=
  match d_part d u with Some b => Some b | None => part s u end.
Definition d_partWeight (s : phg) (d : delta) (p : nat) : Z := partWeight s p + d_w d p.
Definition d_pinCountInPart (s : phg) (d : delta) (e p : nat) : Z :=
  Z.max (pinCountInPart s e p + d_default (d_pc d (d_key (d_k d) e p))) 0.
(** connectivitySet :264-266 / delta_connectivity_set.h:108-122, 168-179: the set bits of shared xor local;
    connectivity :269-271 / delta_connectivity_set.h:206-221: their number. *)
Definition d_connectivitySet (s : phg) (d : delta) (e : nat) : list nat :=
  filter (fun p => xorb (cs s e p) (d_cs d e p)) (seq 0 (d_k d)).
Definition d_conn (s : phg) (d : delta) (e : nat) : Z := countb (d_k d) (fun p => xorb (cs s e p) (d_cs d e p)).

Definition updO (f : Z -> option Z) (i v : Z) : Z -> option Z := fun j => if j =? i then Some v else f j.
(** decrement/incrementPinCountOfBlock :326-336: operator[] inserts 0 for a missing key. *)
Definition d_add (d : delta) (e p : nat) (x : Z) : delta :=
  let key := d_key (d_k d) e p in
  mkD (d_k d) (d_w d) (d_part d) (updO (d_pc d) key (d_default (d_pc d key) + x)) (d_cs d).
Definition d_count (s : phg) (d : delta) (e p : nat) : Z :=
  Z.max (pinCountInPart s e p + d_default (d_pc d (d_key (d_k d) e p))) 0.
Definition d_toggle (d : delta) (e p : nat) : delta :=
  mkD (d_k d) (d_w d) (d_part d) (d_pc d) (upd2 (d_cs d) e p (negb (d_cs d e p))).

(** One iteration of the edge loop of changeNodePart :205-216 with updateConnectivitySet :338-348. *)
Definition d_edge (H : hypergraph) (s : phg) (d : delta) (e from to : nat) : delta * sync_update :=
  let d1 := d_add d e from (-1) in
  let fa := d_count s d1 e from in
  let d2 := d_add d1 e to 1 in
  let ta := d_count s d2 e to in
  let d3 := if fa =? 0 then d_toggle d2 e from else d2 in
  let d4 := if ta =? 1 then d_toggle d3 e to else d3 in
  (d4, mkSync e from to (ew H e) (Z.of_nat (length (pins H e))) fa ta).
Fixpoint d_edges (H : hypergraph) (s : phg) (d : delta) (l : list nat) (from to : nat) : delta * list sync_update :=
  match l with
  | [] => (d, [])
  | e :: r => let (d1, su) := d_edge H s d e from to in
              let (d2, sus) := d_edges H s d1 r from to in (d2, su :: sus)
  end.

(** changeNodePart :183-223; [None] if one of its asserts (current block, from <> to, to < k) is violated. *)
Definition d_changeNodePart (H : hypergraph) (s : phg) (d : delta) (u from to : nat) (maxw : Z)
  : option (delta * bool * list sync_update) :=
  if (match d_partID s d u with Some b => Nat.eqb b from | None => false end) && negb (Nat.eqb from to) && (to <? d_k d)%nat then
    if d_partWeight s d to + nw H u <=? maxw then
      let w1 := upd (d_w d) to (d_w d to + nw H u) in
      let d1 := mkD (d_k d) (upd w1 from (w1 from - nw H u)) (upd (d_part d) u (Some to)) (d_pc d) (d_cs d) in
      let (d2, sus) := d_edges H s d1 (inc H u) from to in Some (d2, true, sus)
    else Some (d, false, [])
  else None.

Definition lmove := (nat * nat * nat * Z)%type.  (* node, from, to, maximum weight of the target *)
Fixpoint d_run (H : hypergraph) (s : phg) (d : delta) (ms : list lmove) : option (delta * list (bool * list sync_update)) :=
  match ms with
  | [] => Some (d, [])
  | (u, f, t, m) :: r =>
    match d_changeNodePart H s d u f t m with
    | None => None
    | Some (d1, ok, sus) => match d_run H s d1 r with None => None | Some (d2, rs) => Some (d2, (ok, sus) :: rs) end
    end
  end.
(** The same moves on the shared partition itself. *)
Fixpoint shared_run (H : hypergraph) (s : phg) (ms : list lmove) : option (phg * list (bool * list sync_update)) :=
  match ms with
  | [] => Some (s, [])
  | (u, f, t, m) :: r =>
    match changeNodePart H s u f t m with
    | None => None
    | Some (s1, ok, sus) => match shared_run H s1 r with None => None | Some (s2, rs) => Some (s2, (ok, sus) :: rs) end
    end
  end.

(** ---- proofs ---- *)
(** All keys of existing hyperedges fit into 32 bits. *)
Definition keys_fit (H : hypergraph) (k : nat) : Prop := forall e, In e (edges H) -> (Z.of_nat e + 1) * Z.of_nat k <= 2 ^ 32.

Lemma key_inj H k e p e' p' : keys_fit H k -> In e (edges H) -> In e' (edges H) -> (p < k)%nat -> (p' < k)%nat ->
  d_key k e p = d_key k e' p' -> e = e' /\ p = p'.
Proof.
  intros HF He He' Hp Hp'. unfold d_key. specialize (HF e He) as F1. specialize (HF e' He') as F2.
  rewrite !Z.mod_small by nia. intros E. assert (e = e') by nia. subst. split; [reflexivity|lia].
Qed.

(** [d] over [s] looks like [s']. *)
Record view (H : hypergraph) (s : phg) (d : delta) (s' : phg) : Prop := {
  v_k : d_k d = pk s'; v_ks : pk s = pk s';
  v_part : forall u, d_partID s d u = part s' u;
  v_w : forall p, wt s p + d_w d p = wt s' p;
  v_pc : forall e p, In e (edges H) -> (p < pk s')%nat -> pc s e p + d_default (d_pc d (d_key (d_k d) e p)) = pc s' e p;
  v_cs : forall e p, In e (edges H) -> (p < pk s')%nat -> xorb (cs s e p) (d_cs d e p) = cs s' e p
}.

Lemma view_init H s : view H s (d_init (pk s)) s.
Proof.
  constructor; try reflexivity.
  - intros p. simpl. lia.
  - intros e p _ _. simpl. lia.
  - intros e p _ _. simpl. apply xorb_false_r.
Qed.

Lemma d_add_pc d e p x : d_default (d_pc (d_add d e p x) (d_key (d_k d) e p)) = d_default (d_pc d (d_key (d_k d) e p)) + x.
Proof. unfold d_add, updO. simpl. rewrite Z.eqb_refl. reflexivity. Qed.
Lemma d_add_pc_other H d e p x e' p' : keys_fit H (d_k d) -> In e (edges H) -> In e' (edges H) -> (p < d_k d)%nat -> (p' < d_k d)%nat ->
  (e', p') <> (e, p) -> d_pc (d_add d e p x) (d_key (d_k d) e' p') = d_pc d (d_key (d_k d) e' p').
Proof.
  intros HF He He' Hp Hp' Hne. unfold d_add, updO. simpl.
  destruct (Z.eqb_spec (d_key (d_k d) e' p') (d_key (d_k d) e p)) as [E|]; [|reflexivity].
  destruct (key_inj H (d_k d) e' p' e p HF He' He Hp' Hp E). congruence.
Qed.

Lemma edge_view H s d s' e from to s2 su :
  keys_fit H (pk s') -> view H s d s' -> In e (edges H) -> (from < pk s')%nat -> (to < pk s')%nat -> from <> to ->
  0 <= pc s' e to ->
  updatePinCountOfHyperedge H s' e from to = Some (s2, su) ->
  exists d2, d_edge H s d e from to = (d2, su) /\ view H s d2 s2.
Proof.
  intros HF V He Hf Ht Hft Hto E. destruct V as [Vk Vks Vp Vw Vpc Vcs].
  unfold updatePinCountOfHyperedge, decrementPinCountOfBlock in E.
  replace (from <? pk s')%nat with true in E by lia. cbn [andb] in E.
  destruct (Z.ltb_spec 0 (pc s' e from)) as [Hpos|]; [|discriminate].
  set (s1 := if pc s' e from - 1 =? 0 then _ else _) in E.
  assert (K1 : pk s1 = pk s') by (unfold s1; destruct (_ =? 0); reflexivity).
  assert (P1 : part s1 = part s') by (unfold s1; destruct (_ =? 0); reflexivity).
  assert (W1 : wt s1 = wt s') by (unfold s1; destruct (_ =? 0); reflexivity).
  assert (PC1 : forall a b, pc s1 a b = if Nat.eqb a e && Nat.eqb b from then pc s' e from - 1 else pc s' a b).
  { intros a b. unfold s1. destruct (_ =? 0); simpl; rewrite upd2_eq; reflexivity. }
  assert (CS1 : forall a b, cs s1 a b = if Nat.eqb a e && Nat.eqb b from && (pc s' e from - 1 =? 0) then negb (cs s' e from) else cs s' a b).
  { intros a b. unfold s1. destruct (_ =? 0); simpl; [rewrite upd2_eq, andb_true_r|rewrite andb_false_r]; reflexivity. }
  clearbody s1. unfold incrementPinCountOfBlock in E. rewrite K1 in E. replace (to <? pk s')%nat with true in E by lia.
  assert (E4 : pc s1 e to = pc s' e to). { rewrite PC1. replace (Nat.eqb to from) with false by lia. rewrite andb_false_r. reflexivity. }
  rewrite E4 in E. set (sB := if pc s' e to + 1 =? 1 then _ else _) in E. injection E as <- <-.
  assert (K2 : pk sB = pk s') by (unfold sB; destruct (_ =? 1); simpl; exact K1).
  assert (P2 : part sB = part s') by (unfold sB; destruct (_ =? 1); simpl; exact P1).
  assert (W2 : wt sB = wt s') by (unfold sB; destruct (_ =? 1); simpl; exact W1).
  assert (PC2 : forall a b, pc sB a b = if Nat.eqb a e && Nat.eqb b to then pc s' e to + 1 else pc s1 a b).
  { intros a b. unfold sB. destruct (_ =? 1); simpl; rewrite upd2_eq; reflexivity. }
  assert (CS2 : forall a b, cs sB a b = if Nat.eqb a e && Nat.eqb b to && (pc s' e to + 1 =? 1) then negb (cs s1 e to) else cs s1 a b).
  { intros a b. unfold sB. destruct (_ =? 1); simpl; [rewrite upd2_eq, andb_true_r|rewrite andb_false_r]; reflexivity. }
  clearbody sB.
  assert (Hkey : d_key (d_k d) e from <> d_key (d_k d) e to).
  { intros X. rewrite Vk in X. destruct (key_inj H (pk s') e from e to HF He He Hf Ht X). congruence. }
  (* counts seen by the delta *)
  assert (F : d_count s (d_add d e from (-1)) e from = pc s' e from - 1).
  { unfold d_count. change (d_k (d_add d e from (-1))) with (d_k d). rewrite d_add_pc. specialize (Vpc e from He Hf).
    unfold pinCountInPart. lia. }
  assert (T : d_count s (d_add (d_add d e from (-1)) e to 1) e to = pc s' e to + 1).
  { unfold d_count. change (d_k (d_add (d_add d e from (-1)) e to 1)) with (d_k (d_add d e from (-1))). rewrite d_add_pc.
    change (d_k (d_add d e from (-1))) with (d_k d).
    rewrite (d_add_pc_other H d e from (-1) e to) by (try assumption; try (rewrite Vk; assumption); congruence).
    specialize (Vpc e to He Ht). unfold pinCountInPart. lia. }
  unfold d_edge. rewrite F, T. eexists. split; [reflexivity|].
  set (d3 := if pc s' e from - 1 =? 0 then d_toggle (d_add (d_add d e from (-1)) e to 1) e from else d_add (d_add d e from (-1)) e to 1).
  set (d4 := if pc s' e to + 1 =? 1 then d_toggle d3 e to else d3).
  assert (D3 : d_k d3 = d_k d /\ d_w d3 = d_w d /\ d_part d3 = d_part d /\ d_pc d3 = d_pc (d_add (d_add d e from (-1)) e to 1))
    by (unfold d3; destruct (_ =? 0); repeat split).
  assert (D4 : d_k d4 = d_k d /\ d_w d4 = d_w d /\ d_part d4 = d_part d /\ d_pc d4 = d_pc (d_add (d_add d e from (-1)) e to 1))
    by (unfold d4; destruct (_ =? 1); exact D3).
  assert (C3 : forall a b, d_cs d3 a b = if Nat.eqb a e && Nat.eqb b from && (pc s' e from - 1 =? 0) then negb (d_cs d e from) else d_cs d a b).
  { intros a b. unfold d3. destruct (_ =? 0); simpl; [rewrite upd2_eq, andb_true_r|rewrite andb_false_r]; reflexivity. }
  assert (C4 : forall a b, d_cs d4 a b = if Nat.eqb a e && Nat.eqb b to && (pc s' e to + 1 =? 1) then negb (d_cs d3 e to) else d_cs d3 a b).
  { intros a b. unfold d4. destruct (_ =? 1); simpl; [rewrite upd2_eq, andb_true_r|rewrite andb_false_r]; reflexivity. }
  clearbody d4 d3. destruct D4 as (DK & DW & DP & DPC).
  constructor.
  - rewrite DK, K2. exact Vk.
  - rewrite K2. exact Vks.
  - intros u. unfold d_partID. rewrite DP, P2. apply Vp.
  - intros p. rewrite DW, W2. apply Vw.
  - intros a p Ha Hp. rewrite K2 in Hp. rewrite DPC, DK, PC2, PC1. specialize (Vpc a p Ha Hp).
    destruct (Nat.eqb_spec a e) as [->|Hae]; cbn [andb].
    + destruct (Nat.eqb_spec p to) as [->|Hpt].
      * pose proof (d_add_pc (d_add d e from (-1)) e to 1) as X. change (d_k (d_add d e from (-1))) with (d_k d) in X. rewrite X.
        rewrite (d_add_pc_other H d e from (-1) e to) by (try assumption; try (rewrite Vk; assumption); congruence). lia.
      * pose proof (d_add_pc_other H (d_add d e from (-1)) e to 1 e p) as X. change (d_k (d_add d e from (-1))) with (d_k d) in X.
        rewrite X by (try assumption; try (rewrite Vk; assumption); congruence).
        destruct (Nat.eqb_spec p from) as [->|Hpf]; [rewrite d_add_pc; lia|].
        rewrite (d_add_pc_other H d e from (-1) e p) by (try assumption; try (rewrite Vk; assumption); congruence). exact Vpc.
    + pose proof (d_add_pc_other H (d_add d e from (-1)) e to 1 a p) as X. change (d_k (d_add d e from (-1))) with (d_k d) in X.
      rewrite X by (try assumption; try (rewrite Vk; assumption); congruence).
      rewrite (d_add_pc_other H d e from (-1) a p) by (try assumption; try (rewrite Vk; assumption); congruence). exact Vpc.
  - intros a p Ha Hp. rewrite K2 in Hp. rewrite C4, !C3, CS2, !CS1.
    pose proof (Vcs a p Ha Hp) as V0. pose proof (Vcs e from He Hf) as VF. pose proof (Vcs e to He Ht) as VT.
    destruct (Nat.eqb_spec a e) as [->|Hae]; cbn [andb]; [|exact V0].
    replace (Nat.eqb to from) with false by lia. rewrite Nat.eqb_refl. cbn [andb].
    destruct (Nat.eqb_spec p to) as [->|Hpt]; cbn [andb].
    + replace (Nat.eqb to from) with false by lia. cbn [andb]. rewrite <- VT.
      destruct (pc s' e to + 1 =? 1); destruct (cs s e to), (d_cs d e to); reflexivity.
    + destruct (Nat.eqb_spec p from) as [->|Hpf]; cbn [andb]; [|exact V0]. rewrite <- VF.
      destruct (pc s' e from - 1 =? 0); destruct (cs s e from), (d_cs d e from); reflexivity.
Qed.

Definition pc_nn (H : hypergraph) (s : phg) : Prop := forall e p, In e (edges H) -> (p < pk s)%nat -> 0 <= pc s e p.
Lemma update_pk_pc H s e from to s2 su : updatePinCountOfHyperedge H s e from to = Some (s2, su) -> In e (edges H) ->
  pc_nn H s -> pk s2 = pk s /\ pc_nn H s2.
Proof.
  unfold updatePinCountOfHyperedge, decrementPinCountOfBlock. intros E He HN.
  destruct (_ && _) eqn:E1 in E; [|discriminate]. apply andb_true_iff in E1. destruct E1 as [_ E1]. apply Z.ltb_lt in E1.
  set (s1 := if pc s e from - 1 =? 0 then _ else _) in E.
  assert (K1 : pk s1 = pk s) by (unfold s1; destruct (_ =? 0); reflexivity).
  assert (N1 : pc_nn H s1).
  { intros a b Ha Hb. rewrite K1 in Hb. unfold s1. specialize (HN a b Ha Hb). destruct (_ =? 0); simpl; rewrite upd2_eq; destruct (_ && _); lia. }
  clearbody s1. unfold incrementPinCountOfBlock in E. destruct (Nat.ltb_spec to (pk s1)) as [Ht|]; [|discriminate].
  injection E as <- _.
  specialize (N1 e to He Ht) as N2. assert (K2 : pk (if pc s1 e to + 1 =? 1 then addBlock (setPinCountInPart s1 e to (pc s1 e to + 1)) e to else setPinCountInPart s1 e to (pc s1 e to + 1)) = pk s1) by (destruct (_ =? 1); reflexivity).
  split; [congruence|]. intros a b Ha Hb. rewrite K2 in Hb. specialize (N1 a b Ha Hb).
  destruct (_ =? 1); simpl; rewrite upd2_eq; destruct (_ && _); lia.
Qed.

Lemma edges_view H s l : forall d s' from to s2 sus,
  keys_fit H (pk s') -> view H s d s' -> (forall e, In e l -> In e (edges H)) -> (from < pk s')%nat -> (to < pk s')%nat -> from <> to ->
  pc_nn H s' ->
  updateEdges H s' l from to = Some (s2, sus) ->
  exists d2, d_edges H s d l from to = (d2, sus) /\ view H s d2 s2.
Proof.
  induction l as [|e r IH]; intros d s' from to s2 sus HF V Hl Hf Ht Hft HN E; simpl in E.
  - injection E as <- <-. exists d. simpl. auto.
  - destruct (updatePinCountOfHyperedge H s' e from to) as [[s1 su]|] eqn:E1; [|discriminate].
    destruct (updateEdges H s1 r from to) as [[sx susx]|] eqn:E2; [|discriminate]. injection E as <- <-.
    destruct (edge_view H s d s' e from to s1 su HF V (Hl e (or_introl eq_refl)) Hf Ht Hft (HN e to (Hl e (or_introl eq_refl)) Ht) E1) as (d1 & D1 & V1).
    destruct (update_pk_pc H s' e from to s1 su E1 (Hl e (or_introl eq_refl)) HN) as [K1 N1].
    destruct (IH d1 s1 from to sx susx) as (d2 & D2 & V2); try (rewrite K1); try assumption.
    { intros x Hx. apply Hl. right. exact Hx. }
    exists d2. cbn [d_edges]. rewrite D1, D2. auto.
Qed.

Lemma change_view H s d s' u from to maxw s2 ok sus :
  keys_fit H (pk s') -> view H s d s' -> (forall e, In e (inc H u) -> In e (edges H)) -> pc_nn H s' ->
  changeNodePart H s' u from to maxw = Some (s2, ok, sus) ->
  exists d2, d_changeNodePart H s d u from to maxw = Some (d2, ok, sus) /\ view H s d2 s2.
Proof.
  intros HF V Hi HN E. unfold changeNodePart in E. destruct (_ && _ && _) eqn:Eg in E; [|discriminate].
  apply andb_true_iff in Eg. destruct Eg as [Eg E3]. apply andb_true_iff in Eg. destruct Eg as [E1 E2].
  apply in_block_true in E1. apply negb_true_iff, Nat.eqb_neq in E2. apply Nat.ltb_lt in E3.
  unfold d_changeNodePart. pose proof V as [Vk Vks Vp Vw Vpc Vcs]. rewrite Vp, E1, Nat.eqb_refl.
  replace (Nat.eqb from to) with false by lia. rewrite Vk. replace (to <? pk s')%nat with true by lia. cbn [andb negb].
  unfold d_partWeight, partWeight. rewrite Vw.
  destruct (wt s' to + nw H u <=? maxw).
  - destruct (updateEdges H _ (inc H u) from to) as [[sx susx]|] eqn:EU in E; [|discriminate]. injection E as <- <- <-.
    match type of EU with updateEdges _ ?q _ _ _ = _ => set (s1 := q) in * end.
    set (d1 := mkD (pk s') _ _ _ _).
    assert (Hlt : (from < pk s')%nat \/ ~ (from < pk s')%nat) by lia.
    assert (V1 : view H s d1 s1).
    { constructor; simpl; try assumption; try reflexivity.
      - intros v. unfold d_partID, d1. simpl. unfold upd. destruct (Nat.eqb v u); [reflexivity|apply Vp].
      - intros p. unfold upd. pose proof (Vw p). pose proof (Vw to). pose proof (Vw from).
        destruct (Nat.eqb_spec p from) as [->|]; destruct (Nat.eqb_spec from to) as [->|]; try congruence;
        try (destruct (Nat.eqb_spec p to) as [->|]); lia.
      - intros e p He Hp. rewrite <- Vk. apply Vpc; assumption. }
    destruct Hlt as [Hlt|Hge].
    + destruct (edges_view H s (inc H u) d1 s1 from to sx susx HF V1 Hi Hlt E3 E2 HN EU) as (d2 & D2 & V2).
      rewrite D2. exists d2. auto.
    + (* from >= k: the loop can only be empty *)
      destruct (inc H u) as [|e r].
      * simpl in EU. injection EU as <- <-. exists d1. simpl. auto.
      * exfalso. simpl in EU. unfold updatePinCountOfHyperedge, decrementPinCountOfBlock in EU. simpl in EU.
        replace (from <? pk s')%nat with false in EU by lia. discriminate.
  - injection E as <- <- <-. exists d. split; [reflexivity|]. constructor; try assumption.
    intros p. simpl. unfold upd. rewrite Nat.eqb_refl. destruct (Nat.eqb_spec p to) as [->|]; [|apply Vw]. rewrite Vw. lia.
Qed.

Lemma change_sim H s d s' u from to maxw d2 ok sus :
  wf_hg H -> keys_fit H (pk s') -> view H s d s' -> consistent H s' -> In u (nodes H) ->
  d_changeNodePart H s d u from to maxw = Some (d2, ok, sus) ->
  exists s2, changeNodePart H s' u from to maxw = Some (s2, ok, sus) /\ view H s d2 s2 /\ consistent H s2 /\ pk s2 = pk s'.
Proof.
  intros WF HF V C Hu E. pose proof V as [Vk Vks Vp Vw Vpc Vcs].
  assert (G : part s' u = Some from /\ from <> to /\ (to < pk s')%nat).
  { unfold d_changeNodePart in E. rewrite Vp, Vk in E. destruct (part s' u) as [b|] eqn:Epu; [|discriminate].
    destruct (Nat.eqb_spec b from) as [Ebf|]; [|discriminate]. subst from. destruct (Nat.eqb_spec b to) as [|]; [discriminate|].
    destruct (Nat.ltb_spec to (pk s')); [|discriminate]. auto. }
  destruct G as (G1 & G2 & G3).
  assert (HN : pc_nn H s') by (intros e p He Hp; rewrite (c_pc H s' C e p He Hp); apply pin_count_nonneg).
  assert (Hi : forall e, In e (inc H u) -> In e (edges H)) by (intros e He; apply (wf_inc H WF u e Hu) in He; tauto).
  destruct (Z_le_gt_dec (wt s' to + nw H u) maxw) as [Hle|Hgt].
  - destruct (change_accept H WF s' u from to maxw C Hu G1 G2 G3 Hle) as (s2 & E1 & C' & K' & P').
    destruct (change_view H s d s' u from to maxw _ _ _ HF V Hi HN E1) as (d3 & E3 & V3).
    rewrite E in E3. injection E3 as -> -> ->. exists s2. auto.
  - destruct (change_reject H s' u from to maxw G1 G2 G3 ltac:(lia)) as (s2 & E1 & K' & P' & W' & PC' & CS').
    destruct (change_view H s d s' u from to maxw _ _ _ HF V Hi HN E1) as (d3 & E3 & V3).
    rewrite E in E3. injection E3 as -> -> ->. exists s2. split; [exact E1|]. split; [exact V3|]. split; [|exact K'].
    apply (consistent_same H s' s2); assumption.
Qed.

Definition to_op (m : lmove) : phg_op := let '(u, f, t, w) := m in OChange u f t w.
Definition move_nodes (H : hypergraph) (ms : list lmove) : Prop := Forall (fun m => In (fst (fst (fst m))) (nodes H)) ms.

Lemma run_sim H s ms : wf_hg H -> forall d s' d2 rs, keys_fit H (pk s') -> view H s d s' -> consistent H s' -> move_nodes H ms ->
  d_run H s d ms = Some (d2, rs) ->
  exists s2, shared_run H s' ms = Some (s2, rs) /\ phg_run H s' (map to_op ms) = Some s2 /\ view H s d2 s2 /\ consistent H s2 /\ pk s2 = pk s'.
Proof.
  intros WF. induction ms as [|[[[u f] t] m] r IH]; intros d s' d2 rs HF V C HM E; cbn [d_run] in E.
  - injection E as <- <-. exists s'. simpl. auto.
  - destruct (d_changeNodePart H s d u f t m) as [[[d1 ok] sus]|] eqn:E1; [|discriminate].
    destruct (d_run H s d1 r) as [[dx rx]|] eqn:E2; [|discriminate]. injection E as <- <-. inversion HM as [|? ? Hm HM']; subst.
    destruct (change_sim H s d s' u f t m d1 ok sus WF HF V C Hm E1) as (s1 & S1 & V1 & C1 & K1).
    destruct (IH d1 s1 dx rx) as (s2 & R1 & R2 & V2 & C2 & K2); try (rewrite K1); try assumption.
    exists s2. cbn [shared_run map to_op]. rewrite S1, R1. split; [reflexivity|]. split.
    + unfold phg_run in *. cbn [fold_opt phg_step]. rewrite S1. exact R2.
    + split; [exact V2|]. split; [exact C2|]. lia.
Qed.

Lemma api_run_changes ms : api_run MLive (map to_op ms) = Some MLive.
Proof. induction ms as [|[[[u f] t] m] r IH]; [reflexivity|]. exact IH. Qed.

(** C16: a thread-local overlay over an unchanged shared partition answers every query exactly as the shared
    partition would if the local moves had been applied to it - and each local move has the same outcome and
    hands the same records to its callback. *)
Theorem C16_overlay_is_faithful : forall H k l s ms d rs, reachable H k l s -> keys_fit H k -> move_nodes H ms ->
  d_run H s (d_init k) ms = Some (d, rs) ->
  exists s', shared_run H s ms = Some (s', rs) /\ reachable H k (l ++ map to_op ms) s' /\
    (forall u, d_partID s d u = part s' u) /\
    (forall p, d_partWeight s d p = partWeight s' p) /\
    (forall e p, In e (edges H) -> (p < k)%nat -> d_pinCountInPart s d e p = pinCountInPart s' e p) /\
    (forall e, In e (edges H) -> d_connectivitySet s d e = connectivitySet s' e) /\
    (forall e, In e (edges H) -> d_conn s d e = conn s' e).
Proof.
  intros H k l s ms d rs R HF HM E. pose proof R as (WF & Ha & Hf & Hr). destruct (reachable_consistent H k l s R) as [C K]. subst k.
  destruct (run_sim H s ms WF (d_init (pk s)) s d rs HF (view_init H s) C HM E) as (s' & R1 & R2 & V & C' & K').
  exists s'. split; [exact R1|]. pose proof V as [Vk Vks Vp Vw Vpc Vcs]. split; [|split; [|split; [|split; [|split]]]].
  - split; [exact WF|]. split; [|split].
    + unfold api_run in *. rewrite fold_opt_app, Ha. apply api_run_changes.
    + apply Forall_app. split; [exact Hf|]. apply Forall_map. apply (Forall_impl _ (P := fun m => In (fst (fst (fst m))) (nodes H))); [|exact HM].
      intros [[[u f] t] m] Hu. exact Hu.
    + unfold phg_run in *. rewrite fold_opt_app, Hr. exact R2.
  - exact Vp.
  - exact Vw.
  - intros e p He Hp. unfold d_pinCountInPart, pinCountInPart. rewrite Vpc by (try assumption; lia).
    apply Z.max_l. rewrite (c_pc H s' C' e p He) by lia. apply pin_count_nonneg.
  - intros e He. unfold d_connectivitySet, connectivitySet. rewrite Vk. apply filter_ext_in. intros p Hp. apply in_seq in Hp.
    apply Vcs; [exact He|lia].
  - intros e He. unfold d_conn, conn. rewrite Vk. apply countb_ext. intros p Hp. apply Vcs; assumption.
Qed.

Lemma d_k_edges H s l : forall d f t, d_k (fst (d_edges H s d l f t)) = d_k d.
Proof.
  induction l as [|e r IH]; intros d f t; [reflexivity|]. cbn [d_edges]. destruct (d_edge H s d e f t) as [d1 su] eqn:E1.
  destruct (d_edges H s d1 r f t) as [d2 sus] eqn:E2. cbn [fst]. specialize (IH d1 f t). rewrite E2 in IH. cbn [fst] in IH. rewrite IH.
  unfold d_edge in E1. injection E1 as <- _. destruct (_ =? 1), (_ =? 0); reflexivity.
Qed.

Lemma d_k_run H s ms : forall d d2 rs, d_run H s d ms = Some (d2, rs) -> d_k d2 = d_k d.
Proof.
  induction ms as [|[[[u f] t] m] r IH]; intros d d2 rs E; cbn [d_run] in E; [injection E as <- _; reflexivity|].
  destruct (d_changeNodePart H s d u f t m) as [[[d1 ok] sus]|] eqn:E1; [|discriminate].
  destruct (d_run H s d1 r) as [[dx rx]|] eqn:E2; [|discriminate]. injection E as <- _. rewrite (IH _ _ _ E2).
  unfold d_changeNodePart in E1. destruct (_ && _ && _) in E1; [|discriminate]. destruct (_ <=? _) in E1.
  - destruct (d_edges H s _ _ _ _) as [dz sz] eqn:E3 in E1. injection E1 as <- _ _.
    match type of E3 with d_edges _ _ ?q _ _ _ = _ => pose proof (d_k_edges H s (inc H u) q f t) as X end. rewrite E3 in X. exact X.
  - injection E1 as <- _ _. reflexivity.
Qed.

(** C16, second part: after clear() the overlay shows the shared partition again, whatever was done before. *)
Theorem C16_clear : forall H k l s ms d rs, reachable H k l s -> d_run H s (d_init k) ms = Some (d, rs) ->
  d_clear d = d_init k /\
  (forall u, d_partID s (d_clear d) u = part s u) /\ (forall p, d_partWeight s (d_clear d) p = partWeight s p) /\
  (forall e p, In e (edges H) -> (p < k)%nat -> d_pinCountInPart s (d_clear d) e p = pinCountInPart s e p) /\
  (forall e, In e (edges H) -> d_connectivitySet s (d_clear d) e = connectivitySet s e) /\
  (forall e, In e (edges H) -> d_conn s (d_clear d) e = conn s e).
Proof.
  intros H k l s ms d rs R E. destruct (reachable_consistent H k l s R) as [C K]. subst k.
  unfold d_clear. rewrite (d_k_run H s ms _ _ _ E). cbn [d_init d_k]. split; [reflexivity|].
  split; [reflexivity|]. split; [intros p; unfold d_partWeight; simpl; unfold partWeight; lia|]. split; [|split].
  - intros e p He Hp. unfold d_pinCountInPart, pinCountInPart. simpl. rewrite Z.add_0_r. apply Z.max_l.
    rewrite (c_pc H s C e p He Hp). apply pin_count_nonneg.
  - intros e He. unfold d_connectivitySet, connectivitySet. apply filter_ext. intros p. apply xorb_false_r.
  - intros e He. unfold d_conn, conn. apply countb_ext. intros p Hp. apply xorb_false_r.
Qed.

(** C17: the map key e * k + p that identifies (hyperedge, block) is unique while (e + 1) * k <= 2^32 ... *)
Theorem C17_overlay_keys_unique : forall k e p e' p', (p < k)%nat -> (p' < k)%nat ->
  (Z.of_nat e + 1) * Z.of_nat k <= 2 ^ 32 -> (Z.of_nat e' + 1) * Z.of_nat k <= 2 ^ 32 ->
  d_key k e p = d_key k e' p' -> e = e' /\ p = p'.
Proof.
  intros k e p e' p' Hp Hp' F1 F2. unfold d_key. rewrite !Z.mod_small by nia. intros E. assert (e = e') by nia. subst. split; [reflexivity|lia].
Qed.

(** ... and beyond that every block count k >= 2 has two different valid 32-bit hyperedge ids sharing a key
    (finding: the product is computed in 32 bits although the map's key type is 64 bits wide). *)
Theorem C17_refuted_beyond_32_bits : forall k, (2 <= k)%nat -> Z.of_nat k < 2 ^ 32 ->
  exists e p p', Z.of_nat e < 2 ^ 32 /\ (0 < e)%nat /\ (p < k)%nat /\ (p' < k)%nat /\ d_key k e p = d_key k 0 p'.
Proof.
  intros k Hk HK.
  (* e * k wraps to r < k for the smallest e with e * k >= 2^32 *)
  set (e := (2 ^ 32 + Z.of_nat k - 1) / Z.of_nat k). set (r := e * Z.of_nat k - 2 ^ 32).
  pose proof (Z.div_mod (2 ^ 32 + Z.of_nat k - 1) (Z.of_nat k) ltac:(lia)) as D. fold e in D.
  pose proof (Z.mod_pos_bound (2 ^ 32 + Z.of_nat k - 1) (Z.of_nat k) ltac:(lia)) as M.
  assert (B : 0 <= r < Z.of_nat k) by (unfold r; lia).
  assert (E1 : 0 < e < 2 ^ 32) by nia.
  exists (Z.to_nat e), 0%nat, (Z.to_nat r). rewrite Z2Nat.id by lia. split; [lia|]. split; [lia|]. split; [lia|]. split; [lia|].
  unfold d_key. rewrite !Z2Nat.id by lia. simpl Z.of_nat. rewrite Z.mul_0_l, Z.add_0_l, Z.add_0_r.
  rewrite (Z.mod_small r) by lia. replace (e * Z.of_nat k) with (r + 1 * 2 ^ 32) by (unfold r; lia).
  rewrite Z_mod_plus_full. apply Z.mod_small. lia.
Qed.

(** Non-vacuity: three local moves (one rejected) over the example partition. *)
Definition ex_lmoves : list lmove := [(2%nat, 0%nat, 1%nat, 100); (1%nat, 0%nat, 1%nat, 2); (3%nat, 1%nat, 0%nat, 100)].
Example ex_C16 : keys_fit exH 2 /\ move_nodes exH ex_lmoves /\
  match d_run exH ex_state (d_init 2) ex_lmoves with
  | Some (d, rs) => map fst rs = [true; false; true] /\ map (d_partID ex_state d) [0;1;2;3]%nat = map (part ex_state) [0;1;3;2]%nat
  | None => False
  end.
Proof.
  split; [|split].
  - intros e He. repeat (destruct He as [<-|He]; [vm_compute; discriminate|]). destruct He.
  - repeat constructor; simpl; tauto.
  - vm_compute. auto.
Qed.
