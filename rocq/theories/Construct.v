(** Construct.v - construction of a hypergraph from user data:
    StaticHypergraphFactory::construct (mt-kahypar/datastructures/static_hypergraph_factory.cpp:38-173),
    create_hypergraph_from_adjacency_array (include/lib_helper_functions.h:341-382), create_hypergraph (:311-339),
    deduplicateHyperedgePins (mt-kahypar/utils/deduplicate.h:38-55).

    Scheduling freedom: which thread counts which hyperedge; the order of the fetch_adds that hand out positions in
    _incident_nets and, independently, the order in which the plain writes to _incident_nets / _incidence_array take effect.
    An exception is [None].  The prefix sums are exact (PrefixSum.v, C46); ids are unbounded except where said. *)
From Verif Require Import Base Spec WfCheck Sorting Csr.

(** Plain writes to an array, in the given order. *)
Definition write_list {A} (mem : nat -> A) (l : list (nat * A)) : nat -> A :=
  fold_left (fun f w => upd f (fst w) (snd w)) l mem.

Section Construct.
Variables (n m : nat) (evs : list (list nat)).
Variables (hew : option (nat -> Z)) (hnw : option (nat -> Z)) (stable : bool).

Definition ev (e : nat) : list nat := nth e evs [].
(** Iterations of the loop over the pins of all hyperedges, :126: (hyperedge, index of the pin). *)
Definition events : list (nat * nat) := flat_map (fun e => map (pair e) (seq 0 (length (ev e)))) (seq 0 m).
Definition pin_of (x : nat * nat) : nat := nth (snd x) (ev (fst x)) 0%nat.

(** :63-72 *)
Definition check_edge (e : nat) : bool := negb (length (ev e) =? 0)%nat && forallb (fun p => p <? n)%nat (ev e).

(** ++num_incident_nets_per_vertex[pin] in the counter of one thread, :61-74, and the sum over all threads, :84-89 *)
Definition local_count (es : list nat) (v : nat) : nat :=
  list_sum (map (fun e => count_occ Nat.eq_dec (ev e) v) es).
Definition count (threads : list (list nat)) (v : nat) : nat := list_sum (map (fun es => local_count es v) threads).

Record ksched := mkKS { k_threads : list (list nat); k_fa : list (nat * nat); k_wr : list (nat * nat) }.
Definition ksched_ok (s : ksched) : Prop :=
  Permutation (concat (k_threads s)) (seq 0 m) /\ Permutation (k_fa s) events /\ Permutation (k_wr s) events.

(** Exclusive prefix sums, :95-103 *)
Definition pin_start (e : nat) : nat := list_sum (map (fun e => length (ev e)) (seq 0 e)).
Definition net_start (s : ksched) (v : nat) : nat := list_sum (map (count (k_threads s)) (seq 0 v)).

(** Value returned by incident_nets_position[pin].fetch_add(1) for iteration [x], :133 *)
Definition pair_eqb (x y : nat * nat) : bool := Nat.eqb (fst x) (fst y) && Nat.eqb (snd x) (snd y).
Fixpoint ticket (fa : list (nat * nat)) (x : nat * nat) : nat :=
  match fa with
  | [] => 0%nat
  | y :: r => if pair_eqb y x then 0%nat else ((if Nat.eqb (pin_of y) (pin_of x) then 1 else 0) + ticket r x)%nat
  end.
(** :130, :135 *)
Definition incidence_array (s : ksched) (mem : nat -> nat) : nat -> nat :=
  write_list mem (map (fun x => ((pin_start (fst x) + snd x)%nat, pin_of x)) (k_wr s)).
Definition incident_nets (s : ksched) (mem : nat -> nat) : nat -> nat :=
  write_list mem (map (fun x => ((net_start s (pin_of x) + ticket (k_fa s) x)%nat, fst x)) (k_wr s)).

(** The hypergraph; [mem1], [mem2]: arbitrary initial content of the two resized arrays.  Missing weights are 1
    (default member of Hypernode/Hyperedge, static_hypergraph.h:73, 194). *)
Definition construct (s : ksched) (mem1 mem2 : nat -> nat) : option hypergraph :=
  if (length evs =? m)%nat && forallb check_edge (seq 0 m) then
    let ia := incidence_array s mem1 in
    let ine := incident_nets s mem2 in
    Some (mkHG (seq 0 n) (seq 0 m)
               (fun e => slice ia (pin_start e) (length (ev e)))
               (fun v => let l := slice ine (net_start s v) (count (k_threads s) v) in if stable then nsort l else l)
               (match hnw with Some w => w | None => fun _ => 1 end)
               (match hew with Some w => w | None => fun _ => 1 end))
  else None.

(** ---- proofs ---- *)
Lemma list_sum_map_ext {A} (f g : A -> nat) l : (forall x, In x l -> f x = g x) -> list_sum (map f l) = list_sum (map g l).
Proof. intros E. f_equal. apply map_ext_in, E. Qed.
Lemma list_sum_perm l1 l2 : Permutation l1 l2 -> list_sum l1 = list_sum l2.
Proof. induction 1; simpl; lia. Qed.
Lemma write_list_spec {A} (l : list (nat * A)) : forall mem a v, In (a, v) l -> (forall v', In (a, v') l -> v' = v) -> write_list mem l a = v.
Proof.
  assert (G : forall (l : list (nat * A)) mem a v, (forall v', In (a, v') l -> v' = v) -> mem a = v \/ In (a, v) l -> write_list mem l a = v).
  { clear l. induction l as [|[b w] r IH]; intros mem a v F D; cbn [write_list fold_left]; [destruct D as [D|[]]; exact D|].
    apply IH; [intros v' Hv'; apply F; right; exact Hv'|]. cbn [fst snd].
    destruct (Nat.eq_dec a b) as [->|Hab].
    - left. rewrite upd_same. apply F. left. reflexivity.
    - destruct D as [D|[D|D]]; [left; rewrite upd_other; assumption|congruence|right; exact D]. }
  intros mem a v Hin F. apply G; [exact F|right; exact Hin].
Qed.

(** Writes that fill consecutive positions. *)
Lemma fill_range {A} (d : A) (l : list A) (W : list (nat * A)) mem base :
  (forall j, (j < length l)%nat -> In ((base + j)%nat, nth j l d) W) ->
  (forall a v v', In (a, v) W -> In (a, v') W -> v = v') ->
  map (write_list mem W) (seq base (length l)) = l.
Proof.
  intros HA F. apply nth_ext with (d := d) (d' := d); [rewrite map_length, seq_length; reflexivity|].
  intros j Hj. rewrite map_length, seq_length in Hj.
  rewrite nth_indep with (d' := write_list mem W 0%nat) by (rewrite map_length, seq_length; exact Hj).
  rewrite (map_nth (write_list mem W)), seq_nth by exact Hj. apply write_list_spec; [apply HA, Hj|].
  intros v' Hv'. exact (F _ _ _ Hv' (HA j Hj)).
Qed.
Lemma csr_fill (ls : nat -> list nat) (W : list (nat * nat)) mem i :
  (forall j, (j < length (ls i))%nat -> In ((start ls i + j)%nat, nth j (ls i) 0%nat) W) ->
  (forall a v v', In (a, v) W -> In (a, v') W -> v = v') ->
  slice (write_list mem W) (start ls i) (length (ls i)) = ls i.
Proof. intros A F. unfold slice. apply (fill_range 0%nat); assumption. Qed.

Lemma in_events x : In x events <-> (fst x < m)%nat /\ (snd x < length (ev (fst x)))%nat.
Proof.
  unfold events. rewrite in_flat_map. split.
  - intros (e & He & Hx). apply in_seq in He. apply in_map_iff in Hx. destruct Hx as (i & <- & Hi). apply in_seq in Hi. simpl. lia.
  - intros [A B]. exists (fst x). split; [apply in_seq; lia|]. apply in_map_iff. exists (snd x). split; [destruct x; reflexivity|apply in_seq; lia].
Qed.
Lemma NoDup_flat_map_ {A B} (f : A -> list B) l : NoDup l -> (forall a, In a l -> NoDup (f a)) ->
  (forall a b x, In a l -> In b l -> In x (f a) -> In x (f b) -> a = b) -> NoDup (flat_map f l).
Proof.
  induction l as [|a l IH]; intros N Nf D; simpl; [constructor|]. apply NoDup_cons_iff in N. destruct N as [Na N].
  assert (NA : NoDup (f a)) by (apply Nf; left; reflexivity).
  assert (NB : NoDup (flat_map f l)) by (apply IH; [exact N|intros b Hb; apply Nf; right; exact Hb|intros b c x Hb Hc; apply D; right; assumption]).
  assert (DJ : forall x, In x (f a) -> ~ In x (flat_map f l)).
  { intros x Hx C. apply in_flat_map in C. destruct C as (b & Hb & Hxb). apply Na.
    rewrite (D a b x (or_introl eq_refl) (or_intror Hb) Hx Hxb). exact Hb. }
  revert NA DJ. generalize (f a) as l1. induction l1 as [|y l1 IH1]; intros NA DJ; simpl; [exact NB|].
  apply NoDup_cons_iff in NA. destruct NA as [Ny NA]. constructor.
  - intros C. apply in_app_or in C. destruct C as [C|C]; [exact (Ny C)|exact (DJ y (or_introl eq_refl) C)].
  - apply IH1; [exact NA|intros x Hx; apply DJ; right; exact Hx].
Qed.
Lemma events_nodup : NoDup events.
Proof.
  apply NoDup_flat_map_; [apply seq_NoDup| |].
  - intros e _. apply FinFun.Injective_map_NoDup; [intros i j E; congruence|apply seq_NoDup].
  - intros a b x _ _ Ha Hb. apply in_map_iff in Ha, Hb. destruct Ha as (i & <- & _), Hb as (j & E & _). congruence.
Qed.

Lemma pair_eqb_eq x y : pair_eqb x y = true <-> x = y.
Proof.
  unfold pair_eqb. rewrite andb_true_iff, !Nat.eqb_eq. destruct x, y; simpl. split; [intros [-> ->]; reflexivity|intros E; injection E; auto].
Qed.

(** The nets that vertex [v] gets, in ticket order. *)
Definition nets (s : ksched) (v : nat) : list nat := map fst (filter (fun x => Nat.eqb (pin_of x) v) (k_fa s)).

Lemma ticket_nth fa x : NoDup fa -> In x fa ->
  (ticket fa x < length (filter (fun y => Nat.eqb (pin_of y) (pin_of x)) fa))%nat /\
  nth (ticket fa x) (filter (fun y => Nat.eqb (pin_of y) (pin_of x)) fa) (0%nat, 0%nat) = x.
Proof.
  induction fa as [|y r IH]; intros N Hx; [destruct Hx|]. apply NoDup_cons_iff in N. destruct N as [Ny N]. cbn [ticket filter].
  destruct (pair_eqb y x) eqn:E.
  - apply pair_eqb_eq in E. subst y. rewrite Nat.eqb_refl. simpl. split; [lia|reflexivity].
  - destruct Hx as [->|Hx]; [rewrite (proj2 (pair_eqb_eq x x) eq_refl) in E; discriminate|].
    destruct (IH N Hx) as [A B]. destruct (Nat.eqb (pin_of y) (pin_of x)); simpl; split; try assumption; lia.
Qed.
Lemma ticket_of_nth fa v j : NoDup fa -> (j < length (filter (fun y => Nat.eqb (pin_of y) v) fa))%nat ->
  let x := nth j (filter (fun y => Nat.eqb (pin_of y) v) fa) (0%nat, 0%nat) in In x fa /\ pin_of x = v /\ ticket fa x = j.
Proof.
  intros N Hj x. assert (Hx : In x (filter (fun y => Nat.eqb (pin_of y) v) fa)) by (apply nth_In, Hj).
  apply filter_In in Hx. destruct Hx as [Hx Ev]. apply Nat.eqb_eq in Ev. split; [exact Hx|]. split; [exact Ev|].
  destruct (ticket_nth fa x N Hx) as [A B]. rewrite Ev in A, B.
  assert (NF : NoDup (filter (fun y => Nat.eqb (pin_of y) v) fa)) by (apply NoDup_filter, N).
  rewrite NoDup_nth with (d := (0%nat, 0%nat)) in NF. apply NF; [exact A|exact Hj|exact B].
Qed.

Variable s : ksched.
Hypothesis OK : ksched_ok s.

Lemma filter_length_count (l : list nat) v : length (filter (fun i => Nat.eqb (nth i l 0%nat) v) (seq 0 (length l))) = count_occ Nat.eq_dec l v.
Proof.
  assert (G : forall l (f : nat -> nat), length (filter (fun i => Nat.eqb (f (nth i l 0%nat)) v) (seq 0 (length l))) = count_occ Nat.eq_dec (map f l) v).
  { clear l. induction l as [|a l IH]; intros f; [reflexivity|]. cbn [length map seq]. rewrite <- seq_shift. cbn [filter]. change (nth 0 (a :: l) 0%nat) with a.
    assert (E : forall L, length (filter (fun i => Nat.eqb (f (nth i (a :: l) 0%nat)) v) (map S L)) = length (filter (fun i => Nat.eqb (f (nth i l 0%nat)) v) L)).
    { induction L as [|x L IHL]; [reflexivity|]. cbn [map filter]. change (nth (S x) (a :: l) 0%nat) with (nth x l 0%nat). destruct (Nat.eqb (f (nth x l 0%nat)) v); cbn [length]; rewrite IHL; reflexivity. }
    cbn [count_occ]. destruct (Nat.eq_dec (f a) v) as [D|D].
    - rewrite (proj2 (Nat.eqb_eq _ _) D). cbn [length]. rewrite E, IH. reflexivity.
    - rewrite (proj2 (Nat.eqb_neq _ _) D). rewrite E, IH. reflexivity. }
  specialize (G l (fun x => x)). rewrite map_id in G. exact G.
Qed.
Lemma Permutation_filter_ {A} (p : A -> bool) l1 l2 : Permutation l1 l2 -> Permutation (filter p l1) (filter p l2).
Proof.
  induction 1; simpl; try (destruct (p x)); try (destruct (p y)); try constructor; auto. eapply perm_trans; eassumption.
Qed.

Lemma filter_flat_map {A B} (p : B -> bool) (f : A -> list B) l : filter p (flat_map f l) = flat_map (fun a => filter p (f a)) l.
Proof. induction l as [|a l IH]; simpl; [reflexivity|]. rewrite filter_app, IH. reflexivity. Qed.
Lemma length_flat_map {A B} (f : A -> list B) l : length (flat_map f l) = list_sum (map (fun a => length (f a)) l).
Proof. induction l as [|a l IH]; simpl; [reflexivity|]. rewrite app_length, IH. reflexivity. Qed.
Lemma list_sum_concat ls : list_sum (concat ls) = list_sum (map list_sum ls).
Proof. induction ls as [|a l IH]; simpl; [reflexivity|]. rewrite list_sum_app, IH. reflexivity. Qed.

Lemma count_total v : count (k_threads s) v = local_count (seq 0 m) v.
Proof.
  destruct OK as (A & _ & _). unfold count, local_count.
  rewrite <- (list_sum_perm _ _ (Permutation_map (fun e => count_occ Nat.eq_dec (ev e) v) A)).
  rewrite concat_map, list_sum_concat, map_map. reflexivity.
Qed.
Lemma filter_map_ {A B} (p : B -> bool) (f : A -> B) l : filter p (map f l) = map f (filter (fun a => p (f a)) l).
Proof. induction l as [|a l IH]; simpl; [reflexivity|]. destruct (p (f a)); simpl; rewrite IH; reflexivity. Qed.
Lemma nets_length v : length (nets s v) = count (k_threads s) v.
Proof.
  destruct OK as (_ & B & _). rewrite count_total. unfold nets. rewrite map_length.
  rewrite (Permutation_length (Permutation_filter_ _ _ _ B)). unfold events, local_count. rewrite filter_flat_map, length_flat_map.
  apply list_sum_map_ext. intros e _. rewrite filter_map_, map_length. exact (filter_length_count (ev e) v).
Qed.
(** The nets of a vertex: every hyperedge as often as the vertex occurs in it. *)
Lemma nets_perm v : Permutation (nets s v) (flat_map (fun e => repeat e (count_occ Nat.eq_dec (ev e) v)) (seq 0 m)).
Proof.
  destruct OK as (_ & B & _). unfold nets. rewrite (Permutation_map fst (Permutation_filter_ _ _ _ B)).
  unfold events. rewrite filter_flat_map. rewrite flat_map_concat_map, concat_map, map_map, <- flat_map_concat_map.
  apply Permutation_refl'. apply flat_map_ext. intros e. rewrite filter_map_, map_map. rewrite <- (filter_length_count (ev e) v).
  cbn [fst]. unfold pin_of. cbn [fst snd].
  generalize (filter (fun a => Nat.eqb (nth a (ev e) 0%nat) v) (seq 0 (length (ev e)))) as L.
  induction L as [|x L IH]; [reflexivity|]. simpl. f_equal. exact IH.
Qed.
Lemma net_start_eq v : net_start s v = start (nets s) v.
Proof. unfold net_start, start. apply list_sum_map_ext. intros u _. symmetry. apply nets_length. Qed.

Lemma start_inj (ls : nat -> list nat) a b i j : (i < length (ls a))%nat -> (j < length (ls b))%nat ->
  (start ls a + i = start ls b + j)%nat -> a = b /\ i = j.
Proof.
  intros Hi Hj E. destruct (Nat.lt_total a b) as [C|[->|C]]; [pose proof (start_mono ls _ _ C); lia|split; lia|pose proof (start_mono ls _ _ C); lia].
Qed.

Lemma incident_nets_slice mem v : slice (incident_nets s mem) (net_start s v) (count (k_threads s) v) = nets s v.
Proof.
  destruct OK as (_ & B & C). rewrite net_start_eq, <- nets_length. unfold incident_nets.
  assert (NF : NoDup (k_fa s)) by (apply (Permutation_NoDup (Permutation_sym B)), events_nodup).
  assert (FW : forall x, In x (k_wr s) <-> In x (k_fa s)).
  { intros x. split; intros Hx; [apply (Permutation_in _ (Permutation_sym B)), (Permutation_in _ C), Hx|apply (Permutation_in _ (Permutation_sym C)), (Permutation_in _ B), Hx]. }
  apply csr_fill.
  - intros j Hj. unfold nets in Hj. rewrite map_length in Hj. destruct (ticket_of_nth (k_fa s) v j NF Hj) as (X1 & X2 & X3).
    set (x := nth j (filter _ (k_fa s)) (0%nat, 0%nat)) in *. apply in_map_iff. exists x. split; [|apply FW, X1].
    rewrite X2, X3, net_start_eq. f_equal. unfold nets. change 0%nat with (fst (0%nat, 0%nat)) at 1. rewrite map_nth. reflexivity.
  - intros a e1 e2 H1 H2. apply in_map_iff in H1, H2. destruct H1 as (x & E1 & Hx), H2 as (y & E2 & Hy).
    injection E1 as E1 <-. injection E2 as E2 <-. rewrite <- E2, !net_start_eq in E1.
    apply FW in Hx, Hy. destruct (ticket_nth (k_fa s) x NF Hx) as [A1 B1]. destruct (ticket_nth (k_fa s) y NF Hy) as [A2 B2].
    destruct (start_inj (nets s) (pin_of x) (pin_of y) _ _ ltac:(unfold nets; rewrite map_length; exact A1) ltac:(unfold nets; rewrite map_length; exact A2) E1) as [Ep Et].
    rewrite <- Ep, <- Et, B1 in B2. rewrite B2. reflexivity.
Qed.
Lemma incidence_array_slice mem e : (e < m)%nat -> slice (incidence_array s mem) (pin_start e) (length (ev e)) = ev e.
Proof.
  intros He. destruct OK as (_ & B & C). change (pin_start e) with (start ev e). unfold incidence_array.
  assert (FW : forall x, In x (k_wr s) <-> In x events).
  { intros x. split; intros Hx; [apply (Permutation_in _ C), Hx|apply (Permutation_in _ (Permutation_sym C)), Hx]. }
  apply csr_fill.
  - intros j Hj. apply in_map_iff. exists (e, j). split; [reflexivity|]. apply FW, in_events. simpl. lia.
  - intros a p1 p2 H1 H2. apply in_map_iff in H1, H2. destruct H1 as (x & E1 & Hx), H2 as (y & E2 & Hy).
    injection E1 as E1 <-. injection E2 as E2 <-. rewrite <- E2 in E1. apply FW, in_events in Hx, Hy.
    destruct (start_inj ev _ _ _ _ (proj2 Hx) (proj2 Hy) E1) as [A1 A2]. unfold pin_of. rewrite A1, A2. reflexivity.
Qed.
End Construct.

(** What the user asked for: valid input, and the hypergraph it describes. *)
Definition valid_input (n m : nat) (evs : list (list nat)) : Prop :=
  length evs = m /\ forall ps, In ps evs -> ps <> [] /\ forall p, In p ps -> (p < n)%nat.
Definition weight_or_one (w : option (nat -> Z)) (i : nat) : Z := match w with Some f => f i | None => 1 end.

(** C36 (first part). *)
Theorem C36_construct n m evs hew hnw stable s mem1 mem2 : ksched_ok m evs s ->
  (construct n m evs hew hnw stable s mem1 mem2 <> None <-> valid_input n m evs) /\
  forall H, construct n m evs hew hnw stable s mem1 mem2 = Some H ->
    nodes H = seq 0 n /\ edges H = seq 0 m /\
    (forall e, (e < m)%nat -> nth_error evs e = Some (pins H e)) /\
    (forall v, Permutation (inc H v) (flat_map (fun e => repeat e (count_occ Nat.eq_dec (pins H e) v)) (seq 0 m))) /\
    (stable = true -> forall v, StronglySorted le (inc H v)) /\
    (forall v, nw H v = weight_or_one hnw v) /\ (forall e, ew H e = weight_or_one hew e) /\
    ((forall ps, In ps evs -> NoDup ps) -> wf_hg H).
Proof.
  intros OK. split.
  { unfold construct, valid_input. destruct ((length evs =? m)%nat && forallb (check_edge n evs) (seq 0 m)) eqn:E.
    - split; [intros _|intros _; discriminate]. apply andb_true_iff in E. destruct E as [E1 E2]. apply Nat.eqb_eq in E1. split; [exact E1|].
      intros ps Hps. rewrite forallb_forall in E2. apply In_nth with (d := []) in Hps. destruct Hps as (e & He & <-).
      specialize (E2 e ltac:(apply in_seq; lia)). unfold check_edge in E2. apply andb_true_iff in E2. destruct E2 as [E2 E3].
      fold (ev evs e). split.
      + intros X. rewrite X in E2. discriminate.
      + intros p Hp. rewrite forallb_forall in E3. specialize (E3 p Hp). apply Nat.ltb_lt in E3. exact E3.
    - split; [congruence|]. intros [A B]. exfalso. rewrite A, Nat.eqb_refl in E. cbn [andb] in E.
      rewrite <- not_true_iff_false in E. apply E. apply forallb_forall. intros e He. apply in_seq in He.
      destruct (B (ev evs e)) as [B1 B2]; [apply nth_In; lia|]. unfold check_edge. apply andb_true_iff. split.
      + destruct (ev evs e); [congruence|reflexivity].
      + apply forallb_forall. intros p Hp. apply Nat.ltb_lt, B2, Hp. }
  intros H E. unfold construct in E. destruct (_ && _) eqn:V; [|discriminate]. injection E as <-. cbn [nodes edges pins inc nw ew].
  apply andb_true_iff in V. destruct V as [V1 V2]. apply Nat.eqb_eq in V1.
  assert (PI : forall e, (e < m)%nat -> slice (incidence_array evs s mem1) (pin_start evs e) (length (ev evs e)) = ev evs e).
  { intros e He. apply (incidence_array_slice m evs s OK). exact He. }
  assert (INC : forall v, Permutation (if stable then nsort (slice (incident_nets evs s mem2) (net_start evs s v) (count evs (k_threads s) v))
        else slice (incident_nets evs s mem2) (net_start evs s v) (count evs (k_threads s) v))
      (flat_map (fun e => repeat e (count_occ Nat.eq_dec (ev evs e) v)) (seq 0 m))).
  { intros v. rewrite (incident_nets_slice m evs s OK). destruct stable; [rewrite nsort_perm|]; apply (nets_perm m evs s OK). }
  assert (ICI : forall v e, In e (flat_map (fun e => repeat e (count_occ Nat.eq_dec (ev evs e) v)) (seq 0 m)) <-> (e < m)%nat /\ In v (ev evs e)).
  { intros v e. rewrite in_flat_map. split.
    - intros (e' & He' & Hr). pose proof (repeat_spec _ _ _ Hr) as ->. apply in_seq in He'. split; [lia|].
      apply (count_occ_In Nat.eq_dec). destruct (count_occ Nat.eq_dec (ev evs e') v); [destruct Hr|lia].
    - intros [A B]. exists e. split; [apply in_seq; lia|]. apply (count_occ_In Nat.eq_dec) in B. destruct (count_occ Nat.eq_dec (ev evs e) v); [lia|left; reflexivity]. }
  repeat split.
  - intros e He. rewrite (PI e He). apply nth_error_nth'. lia.
  - intros v. eapply perm_trans; [apply INC|]. match goal with |- Permutation ?a ?b => assert (X : a = b); [|rewrite X; reflexivity] end. rewrite !flat_map_concat_map. f_equal. apply map_ext_in. intros e He. apply in_seq in He. rewrite PI by lia. reflexivity.
  - intros -> v. apply nsort_sorted.
  - intros v. destruct hnw; reflexivity.
  - intros v. destruct hew; reflexivity.
  - apply seq_NoDup.
  - apply seq_NoDup.
  - cbn [edges pins]. intros e He. apply in_seq in He. rewrite PI by lia. apply H. apply nth_In. lia.
  - cbn [edges pins nodes]. intros e v He Hv. apply in_seq in He. rewrite PI in Hv by lia. rewrite forallb_forall in V2.
    specialize (V2 e ltac:(apply in_seq; lia)). unfold check_edge in V2. apply andb_true_iff in V2. destruct V2 as [_ V2].
    rewrite forallb_forall in V2. specialize (V2 v Hv). apply Nat.ltb_lt in V2. apply in_seq. lia.
  - cbn [nodes inc]. intros v Hv. apply (Permutation_NoDup (Permutation_sym (INC v))).
    apply NoDup_flat_map_; [apply seq_NoDup| |].
    + intros e He. apply in_seq in He.
      pose proof (proj1 (NoDup_count_occ Nat.eq_dec (ev evs e)) (H (ev evs e) ltac:(apply nth_In; lia)) v) as C.
      destruct (count_occ Nat.eq_dec (ev evs e) v) as [|[|c]]; simpl; [constructor|constructor; [intros []|constructor]|lia].
    + intros a b x _ _ Ha Hb. rewrite <- (repeat_spec _ _ _ Ha). apply (repeat_spec _ _ _ Hb).
  - cbn [edges]. apply in_seq. assert (In e (flat_map (fun e => repeat e (count_occ Nat.eq_dec (ev evs e) v)) (seq 0 m))) as X by (apply (Permutation_in _ (INC v)); assumption).
    apply ICI in X. lia.
  - cbn [pins]. assert (In e (flat_map (fun e => repeat e (count_occ Nat.eq_dec (ev evs e) v)) (seq 0 m))) as X by (apply (Permutation_in _ (INC v)); assumption).
    apply ICI in X. rewrite PI by apply X. apply X.
  - cbn [edges pins inc]. intros [A B]. apply in_seq in A. rewrite PI in B by lia. apply (Permutation_in _ (Permutation_sym (INC v))), ICI. split; [lia|exact B].
Qed.

(** *** The C interface: adjacency array *)
(** deduplicate.h:41-54: the loop after std::sort; [i], [j] as in the code, [cnt] = remaining iterations *)
Definition swap (a : nat -> nat) (i j : nat) : nat -> nat := upd (upd a i (a j)) j (a i).
Fixpoint dedup_loop (cnt i j : nat) (a : nat -> nat) : nat * (nat -> nat) :=
  match cnt with
  | O => (j, a)
  | S c => if Nat.eqb (a (j - 1)%nat) (a i) then dedup_loop c (S i) j a else dedup_loop c (S i) (S j) (swap a i j)
  end.
Definition dedup (l : list nat) : list nat :=
  let l' := nsort l in
  let '(j, a) := dedup_loop (length l' - 1) 1 1 (fun i => nth i l' 0%nat) in
  if (j <? length l')%nat then map a (seq 0 j) else map a (seq 0 (length l')).

(** std::numeric_limits<HypernodeID>::max() with 32-bit ids; check_overflow, lib_helper_functions.h:137-146 *)
Definition MAX32 : Z := 2 ^ 32 - 1.
Definition fits (x : nat) : bool := Z.of_nat x <=? MAX32.
(** hyperedges[hyperedge_indices[he] + i] for i < num_pins, :367-373 *)
Definition segment (idx hes : nat -> nat) (e : nat) : list nat := map hes (seq (idx e) (idx (S e) - idx e)).
(** :361-372 *)
Definition adj_ok (n : nat) (idx hes : nat -> nat) (e : nat) : bool :=
  (idx e <=? idx (S e))%nat && (idx (S e) - idx e <=? n)%nat && forallb fits (segment idx hes e).
(** create_hypergraph_from_adjacency_array, :341-382 and create_hypergraph, :311-329 (static hypergraphs) *)
Definition from_adjacency_array (n m : nat) (idx hes : nat -> nat) (hew hnw : option (nat -> Z)) (s : ksched) (mem1 mem2 : nat -> nat)
  : option hypergraph :=
  if fits n && fits m && Nat.eqb (idx 0%nat) 0 && forallb (adj_ok n idx hes) (seq 0 m)
  then construct n m (map (fun e => dedup (segment idx hes e)) (seq 0 m)) hew hnw true s mem1 mem2
  else None.
(** _hypernodes.resize(num_hypernodes + 1), static_hypergraph_factory.cpp:52: the sum is computed in 32 bits *)
Definition node_records (n : Z) : Z := (n + 1) mod 2 ^ 32.

Lemma strict_snoc l x : strict l -> (forall y, In y l -> (y < x)%nat) -> strict (l ++ [x]).
Proof.
  unfold strict. induction l as [|a l IH]; intros Sl L; simpl; [constructor; constructor|].
  inversion Sl as [|a' l' S1 F1]; subst. constructor.
  - apply IH; [exact S1|intros y Hy; apply L; right; exact Hy].
  - rewrite Forall_app. split; [exact F1|]. constructor; [apply L; left; reflexivity|constructor].
Qed.
Lemma sorted_nth l i j : StronglySorted le l -> (i <= j < length l)%nat -> (nth i l 0 <= nth j l 0)%nat.
Proof.
  intros Sl. revert i j. induction Sl as [|a l Sl IH F]; intros i j Hij; simpl in Hij; [lia|].
  destruct i as [|i], j as [|j]; try lia.
  - simpl. rewrite Forall_forall in F. apply F, nth_In. lia.
  - simpl. apply IH. lia.
Qed.

Lemma dedup_loop_spec l : StronglySorted le l -> forall cnt i j a, (i + cnt = length l)%nat -> (1 <= j <= i)%nat ->
  strict (map a (seq 0 j)) -> (forall x, In x (map a (seq 0 j)) <-> In x (firstn i l)) -> a (j - 1)%nat = nth (i - 1) l 0%nat ->
  (forall q, (i <= q < length l)%nat -> a q = nth q l 0%nat) ->
  let '(j', a') := dedup_loop cnt i j a in (j' <= length l)%nat /\ strict (map a' (seq 0 j')) /\ (forall x, In x (map a' (seq 0 j')) <-> In x l).
Proof.
  intros Sl. induction cnt as [|c IH]; intros i j a Hc Hj HS HE HL HR; cbn [dedup_loop].
  - split; [lia|]. split; [exact HS|]. intros x. rewrite HE. rewrite firstn_all2 by lia. reflexivity.
  - assert (Hi : (i < length l)%nat) by lia.
    assert (FS : firstn (S i) l = firstn i l ++ [nth i l 0%nat]).
    { clear -Hi. revert i Hi. induction l as [|x l IH]; intros i Hi; simpl in Hi; [lia|]. destruct i; [reflexivity|].
      cbn [firstn nth app]. f_equal. apply IH. lia. }
    rewrite (HR i ltac:(lia)), HL. destruct (Nat.eqb_spec (nth (i - 1) l 0%nat) (nth i l 0%nat)) as [E|E].
    + apply IH; try lia.
      * exact HS.
      * intros x. rewrite HE, FS, in_app_iff. split; [auto|]. intros [A|[A|[]]]; [exact A|]. subst x. apply HE, in_map_iff.
        exists (j - 1)%nat. split; [rewrite HL; exact E|apply in_seq; lia].
      * rewrite HL, E. f_equal. lia.
      * intros q Hq. apply HR. lia.
    + set (a2 := swap a i j). assert (A2 : forall q, (q < j)%nat -> a2 q = a q).
      { intros q Hq. unfold a2, swap. rewrite !upd_other by lia. reflexivity. }
      assert (A2j : a2 j = nth i l 0%nat) by (unfold a2, swap; rewrite upd_same; apply HR; lia).
      assert (M2 : map a2 (seq 0 (S j)) = map a (seq 0 j) ++ [nth i l 0%nat]).
      { rewrite (seq_S j 0), map_app. cbn [map]. cbn [Nat.add]. rewrite A2j. f_equal. apply map_ext_in. intros q Hq. apply in_seq in Hq. apply A2. lia. }
      apply IH; try lia.
      * rewrite M2. apply strict_snoc; [exact HS|]. intros y Hy. apply HE in Hy. apply In_nth with (d := 0%nat) in Hy.
        destruct Hy as (q & Hq & Eq). rewrite firstn_length in Hq.
        assert (Eq' : nth q (firstn i l) 0%nat = nth q l 0%nat).
        { clear -Hq. revert i l Hq. induction q as [|q IHq]; intros i l Hq; destruct i, l; simpl in *; try lia; try reflexivity. apply IHq. lia. }
        rewrite Eq' in Eq. subst y. pose proof (sorted_nth l q (i - 1) Sl ltac:(lia)). pose proof (sorted_nth l (i - 1) i Sl ltac:(lia)). lia.
      * intros x. rewrite M2, FS, !in_app_iff, HE. reflexivity.
      * replace (S j - 1)%nat with j by lia. replace (S i - 1)%nat with i by lia. exact A2j.
      * intros q Hq. unfold a2, swap. rewrite !upd_other by lia. apply HR. lia.
Qed.
Lemma dedup_spec l : dedup l = sort_uniq l.
Proof.
  unfold dedup. destruct (nsort l) as [|x r] eqn:E.
  { simpl. unfold sort_uniq. rewrite E. reflexivity. }
  set (l' := x :: r) in *. assert (Sl : StronglySorted le l') by (rewrite <- E; apply nsort_sorted).
  pose proof (dedup_loop_spec l' Sl (length l' - 1) 1 1 (fun i => nth i l' 0%nat)) as D.
  destruct (dedup_loop _ _ _ _) as [j a].
  destruct D as (D1 & D2 & D3); try (simpl; lia).
  - unfold strict. cbn. constructor; constructor.
  - assert (X : (if (j <? length l')%nat then map a (seq 0 j) else map a (seq 0 (length l'))) = map a (seq 0 j)).
    { destruct (Nat.ltb_spec j (length l')); [reflexivity|]. f_equal. f_equal. lia. }
    rewrite X. apply strict_ext; [exact D2|apply sort_uniq_strict|]. intros y. rewrite D3, sort_uniq_In, <- E.
    split; intros Hy; [apply (Permutation_in _ (nsort_perm l)), Hy|apply (Permutation_in _ (Permutation_sym (nsort_perm l))), Hy].
Qed.

(** The pins the user listed for hyperedge [e]. *)
Definition listed (idx hes : nat -> nat) (e p : nat) : Prop := exists i, (idx e <= i < idx (S e))%nat /\ hes i = p.

(** C36: for every schedule, the input is accepted exactly if it is well-formed, and then the hypergraph is the listed one. *)
Theorem C36_adjacency_array n m idx hes hew hnw s mem1 mem2 : ksched_ok m (map (fun e => dedup (segment idx hes e)) (seq 0 m)) s ->
  (from_adjacency_array n m idx hes hew hnw s mem1 mem2 <> None <->
     Z.of_nat n <= MAX32 /\ Z.of_nat m <= MAX32 /\ idx 0%nat = 0%nat /\
     forall e, (e < m)%nat -> (idx e < idx (S e))%nat /\ (idx (S e) - idx e <= n)%nat /\ forall p, listed idx hes e p -> (p < n)%nat) /\
  forall H, from_adjacency_array n m idx hes hew hnw s mem1 mem2 = Some H ->
    wf_hg H /\ nodes H = seq 0 n /\ edges H = seq 0 m /\
    (forall e, (e < m)%nat -> StronglySorted lt (pins H e) /\ forall p, In p (pins H e) <-> listed idx hes e p) /\
    (forall v, (v < n)%nat -> StronglySorted lt (inc H v)) /\
    (forall v, nw H v = weight_or_one hnw v) /\ (forall e, ew H e = weight_or_one hew e).
Proof.
  intros OK. unfold from_adjacency_array. set (evs := map _ _) in *.
  destruct (C36_construct n m evs hew hnw true s mem1 mem2 OK) as [C1 C2].
  assert (SEG : forall e p, In p (dedup (segment idx hes e)) <-> listed idx hes e p).
  { intros e p. rewrite dedup_spec, sort_uniq_In. unfold segment, listed. rewrite in_map_iff. split.
    - intros (i & E & Hi). apply in_seq in Hi. exists i. split; [lia|exact E].
    - intros (i & Hi & E). exists i. split; [exact E|apply in_seq; lia]. }
  assert (EV : forall ps, In ps evs -> exists e, (e < m)%nat /\ ps = dedup (segment idx hes e)).
  { intros ps Hps. unfold evs in Hps. apply in_map_iff in Hps. destruct Hps as (e & <- & He). apply in_seq in He. exists e. split; [lia|reflexivity]. }
  assert (NTH : forall e, (e < m)%nat -> nth_error evs e = Some (dedup (segment idx hes e))).
  { intros e He. unfold evs. rewrite nth_error_map. rewrite (nth_error_nth' _ 0%nat) by (rewrite seq_length; lia). rewrite seq_nth by lia. reflexivity. }
  assert (LEN : length evs = m) by (unfold evs; rewrite map_length, seq_length; reflexivity).
  split.
  - destruct (fits n && fits m && Nat.eqb (idx 0%nat) 0 && forallb (adj_ok n idx hes) (seq 0 m)) eqn:E.
    + rewrite !andb_true_iff in E. destruct E as [[[E1 E2] E3] E4]. unfold fits in E1, E2. apply Nat.eqb_eq in E3.
      rewrite forallb_forall in E4. rewrite C1. split.
      * intros [_ V]. split; [lia|]. split; [lia|]. split; [exact E3|]. intros e He.
        specialize (E4 e ltac:(apply in_seq; lia)). unfold adj_ok in E4. rewrite !andb_true_iff in E4. destruct E4 as [[F1 F2] F3].
        apply Nat.leb_le in F1, F2. destruct (V (dedup (segment idx hes e))) as [V1 V2]; [apply (nth_error_In _ _ (NTH e He))|].
        split; [|split; [lia|intros p Hp; apply V2, SEG, Hp]]. destruct (Nat.eq_dec (idx e) (idx (S e))) as [X|X]; [|lia].
        exfalso. apply V1. unfold segment. rewrite X, Nat.sub_diag. reflexivity.
      * intros (_ & _ & _ & V). split; [exact LEN|]. intros ps Hps. destruct (EV ps Hps) as (e & He & ->). destruct (V e He) as (V1 & V2 & V3).
        split; [|intros p Hp; apply V3, SEG, Hp]. intros X. assert (Y : listed idx hes e (hes (idx e))) by (exists (idx e); split; [lia|reflexivity]).
        apply SEG in Y. rewrite X in Y. destruct Y.
    + split; [congruence|]. intros (B1 & B2 & B3 & B4). exfalso. rewrite <- not_true_iff_false in E. apply E.
      rewrite !andb_true_iff. unfold fits. repeat split; try lia; try (apply Nat.eqb_eq; exact B3). apply forallb_forall. intros e He. apply in_seq in He.
      destruct (B4 e ltac:(lia)) as (V1 & V2 & V3). unfold adj_ok. rewrite !andb_true_iff. repeat split; try (apply Nat.leb_le; lia).
      apply forallb_forall. intros p Hp. unfold fits. assert (p < n)%nat; [|lia]. apply V3. unfold segment in Hp. apply in_map_iff in Hp.
      destruct Hp as (i & Ei & Hi). apply in_seq in Hi. exists i. split; [lia|exact Ei].
  - intros H E. destruct (_ && _) eqn:V; [|discriminate]. destruct (C2 H E) as (D1 & D2 & D3 & D4 & D5 & D6 & D7 & D8).
    assert (PH : forall e, (e < m)%nat -> pins H e = sort_uniq (segment idx hes e)).
    { intros e He. specialize (D3 e He). rewrite (NTH e He), dedup_spec in D3. congruence. }
    assert (W : wf_hg H).
    { apply D8. intros ps Hps. destruct (EV ps Hps) as (e & He & ->). rewrite dedup_spec. apply strict_NoDup, sort_uniq_strict. }
    split; [exact W|]. split; [exact D1|]. split; [exact D2|]. split; [|split; [|split; [exact D6|exact D7]]].
    + intros e He. rewrite (PH e He). split; [apply sort_uniq_strict|]. intros p. rewrite <- dedup_spec. apply SEG.
    + intros v Hv. pose proof (D5 eq_refl v) as S1. pose proof (wf_inc_nodup H W v ltac:(rewrite D1; apply in_seq; lia)) as N1.
      clear -S1 N1. induction S1 as [|a l S1 IH F]; [constructor|]. apply NoDup_cons_iff in N1. destruct N1 as [Na N1]. constructor; [apply IH, N1|].
      rewrite Forall_forall in *. intros b Hb. specialize (F b Hb). assert (a <> b) by congruence. lia.
Qed.
(** check_overflow accepts 2^32 - 1 vertices, for which no node record at all is allocated; below that there is one per
    vertex plus the sentinel. *)
Theorem C36_refuted_max_vertices :
  (exists n, n <= MAX32 /\ node_records n < n) /\ (forall n, 0 <= n < MAX32 -> node_records n = n + 1).
Proof.
  unfold node_records, MAX32. split; [exists (2 ^ 32 - 1); split; [lia|vm_compute; reflexivity]|]. intros n Hn. apply Z.mod_small. lia.
Qed.

(** Non-trivial instance: duplicate and unsorted pins, two threads, interleaved fetch_adds and writes. *)
Definition ex_idx (e : nat) : nat := nth e [0;4;6;9]%nat 9%nat.
Definition ex_hes (i : nat) : nat := nth i [3;1;3;0;2;1;2;0;2]%nat 0%nat.
Definition ex_ks : ksched := mkKS [[2];[0;1]]%nat [(2,0);(0,2);(1,1);(0,0);(0,1);(2,1);(1,0)]%nat [(1,0);(0,0);(0,1);(2,1);(0,2);(1,1);(2,0)]%nat.
Example ex_construct :
  ksched_ok 3 (map (fun e => dedup (segment ex_idx ex_hes e)) (seq 0 3)) ex_ks /\
  match from_adjacency_array 4 3 ex_idx ex_hes (Some (fun e => 5 + Z.of_nat e)) None ex_ks (fun _ => 77%nat) (fun _ => 88%nat) with
  | Some H => map (pins H) [0;1;2]%nat = [[0;1;3];[1;2];[0;2]]%nat /\ map (inc H) [0;1;2;3]%nat = [[0;2];[0;1];[1;2];[0]]%nat /\ ew H 2%nat = 7 /\ nw H 3%nat = 1
  | None => False
  end.
Proof.
  split; [|vm_compute; repeat split; reflexivity]. unfold ksched_ok. split; [|split].
  - apply (Permutation_app_comm [2%nat] [0%nat; 1%nat]).
  - apply NoDup_Permutation; [repeat constructor; simpl; intuition congruence|apply events_nodup|]. intros x. vm_compute. tauto.
  - apply NoDup_Permutation; [repeat constructor; simpl; intuition congruence|apply events_nodup|]. intros x. vm_compute. tauto.
Qed.
