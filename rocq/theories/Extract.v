(** Extract.v - extraction of one block of a partition as a hypergraph of its own
    (PartitionedHypergraph::extract, mt-kahypar/datastructures/partitioned_hypergraph.h:936-1018), as used by recursive
    bipartitioning, where the extraction of one block runs while a sibling task already moves nodes of the other block
    (recursive_bipartitioning.cpp:305-308).  Therefore every read of the shared partition has its own observed state.
    Simplifications: community ids (:1008-1014) are not modelled; ids are [nat]; 32-bit overflow is not modelled. *)
From Verif Require Import Base Spec SpecLemmas WfCheck PHG PHGProofs Objective GainCache GainCacheProofs Conc ConcProofs ConcRun PropsA Construct.

(** ** Specification: the sub-hypergraph of block [b] *)
(** The hyperedges that are represented: at least two pins in the block and, if cut hyperedges are discarded, no pin
    outside. *)
Definition kept (H : hypergraph) (P : partition) (b : nat) (split : bool) (e : nat) : bool :=
  (1 <? pin_count H P e b) && (split || (connectivity H P e =? 1)).
Definition block_nodes (H : hypergraph) (P : partition) (b : nat) : list nat := filter (in_block P b) (nodes H).
Definition block_edges (H : hypergraph) (P : partition) (b : nat) (split : bool) : list nat := filter (kept H P b split) (edges H).

Record extracted (H : hypergraph) (P : partition) (b : nat) (split : bool) (X : hypergraph) (mp : nat -> option nat) : Prop := {
  x_nodes : nodes X = seq 0 (length (block_nodes H P b));
  x_map : forall v i, mp v = Some i <-> nth_error (block_nodes H P b) i = Some v;
  x_edges : edges X = seq 0 (length (block_edges H P b split));
  x_pins : forall i e, nth_error (block_edges H P b split) i = Some e ->
             map Some (pins X i) = map mp (filter (in_block P b) (pins H e));
  x_ew : forall i e, nth_error (block_edges H P b split) i = Some e -> ew X i = ew H e;
  x_nw : forall i v, nth_error (block_nodes H P b) i = Some v -> nw X i = nw H v;
  x_wf : wf_hg X
}.

(** ** Model *)
(** The reads of the shared partition performed by extract, by source line. *)
Inductive rd :=
| RNode1 (v : nat)      (* :957 partID(hn), numbering the nodes *)
| RPc1 (e : nat)        (* :963 pinCountInPart(he, block) *)
| RConn1 (e : nat)      (* :964 connectivity(he) *)
| RPc2 (e : nat)        (* :980 *)
| RConn2 (e : nat)      (* :981 *)
| RPin2 (e v : nat)     (* :985 partID(pin) *)
| RNode2 (v : nat).     (* :994 partID(hn) *)

Fixpoint index_of (v : nat) (l : list nat) : option nat :=
  match l with
  | [] => None
  | x :: r => if Nat.eqb v x then Some 0%nat else match index_of v r with Some i => Some (S i) | None => None end
  end.

Section Model.
Variables (H : hypergraph) (b : nat) (split : bool) (o : rd -> phg).

(** :957, :985, :994 *)
Definition o_in (r : rd) (v : nat) : bool := in_block (part (o r)) b v.
(** :963-964 and :980-981 (evaluated twice, each time with fresh reads) *)
Definition cond1 (e : nat) : bool := (1 <? pinCountInPart (o (RPc1 e)) e b) && (split || (conn (o (RConn1 e)) e =? 1)).
Definition cond2 (e : nat) : bool := (1 <? pinCountInPart (o (RPc2 e)) e b) && (split || (conn (o (RConn2 e)) e =? 1)).

(** First parallel_invoke, :955-968: hn_mapping and he_mapping number the nodes / hyperedges in order. *)
Definition ns : list nat := filter (fun v => o_in (RNode1 v) v) (nodes H).
Definition es : list nat := filter cond1 (edges H).
Definition hn_mapping (v : nat) : option nat := index_of v ns.

(** One hyperedge of the second pass, :980-989.  [None]: he_mapping[he] is kInvalidHyperedge, i.e. hyperedge_weight and
    edge_vector are written out of bounds, or hn_mapping[pin] is kInvalidHypernode. *)
Fixpoint push_pins (l : list nat) (e : nat) : option (list nat) :=
  match l with
  | [] => Some []
  | v :: r =>
    if o_in (RPin2 e v) v then
      match hn_mapping v, push_pins r e with Some i, Some r' => Some (i :: r') | _, _ => None end
    else push_pins r e
  end.
Definition no_stray_edge (e : nat) : bool := negb (cond2 e) || mem e es.
Definition edge_entry (e : nat) : option (list nat) := if cond2 e then push_pins (pins H e) e else Some [].
Fixpoint collect {A} (l : list (option A)) : option (list A) :=
  match l with
  | [] => Some []
  | Some x :: r => match collect r with Some r' => Some (x :: r') | None => None end
  | None :: _ => None
  end.
(** :992-998; a write through an invalid hn_mapping entry is out of bounds. *)
Definition no_stray_node (v : nat) : bool := negb (o_in (RNode2 v) v) || mem v ns.
(** resize value-initializes the weight arrays (:976-977, :992). *)
Definition edge_weight (i : nat) : Z := match nth_error es i with Some e => if cond2 e then ew H e else 0 | None => 0 end.
Definition node_weight (i : nat) : Z := match nth_error ns i with Some v => if o_in (RNode2 v) v then nw H v else 0 | None => 0 end.

Definition extract (stable : bool) (ks : ksched) (mem1 mem2 : nat -> nat) : option (hypergraph * (nat -> option nat)) :=
  if forallb no_stray_edge (edges H) && forallb no_stray_node (nodes H) then
    match collect (map edge_entry es) with
    | Some evs =>
      match construct (length ns) (length es) evs (Some edge_weight) (Some node_weight) stable ks mem1 mem2 with
      | Some X => Some (X, hn_mapping)
      | None => None
      end
    | None => None
    end
  else None.

(** extracted_block.already_cut, :999-1008 *)
Definition extracted_ac (ac : nat -> bool) (i : nat) : bool := match nth_error es i with Some e => ac e | None => false end.
(** The hyperedge lists handed to construct. *)
Definition edge_vector : list (list nat) := match collect (map edge_entry es) with Some evs => evs | None => [] end.
End Model.

(** ** Proofs *)
Lemma index_of_nth v l i : index_of v l = Some i -> nth_error l i = Some v.
Proof.
  revert i; induction l as [|x l IH]; intros i; cbn [index_of]; [discriminate|]. destruct (Nat.eqb_spec v x) as [->|Ne]; [intros [= <-]; reflexivity|].
  destruct (index_of v l) as [j|]; [|discriminate]. intros [= <-]. apply IH. reflexivity.
Qed.
Lemma index_of_nth_inv v l i : NoDup l -> nth_error l i = Some v -> index_of v l = Some i.
Proof.
  revert i; induction l as [|x l IH]; intros i N E; [destruct i; discriminate|]. apply NoDup_cons_iff in N. destruct N as [Nx N]. cbn [index_of].
  destruct i as [|i]; cbn in E; [injection E as ->; rewrite Nat.eqb_refl; reflexivity|]. destruct (Nat.eqb_spec v x) as [->|Ne]; [exfalso; exact (Nx (nth_error_In _ _ E))|].
  rewrite (IH i N E). reflexivity.
Qed.
Lemma index_of_in v l : In v l -> exists i, index_of v l = Some i /\ (i < length l)%nat.
Proof.
  induction l as [|x l IH]; [intros []|]. cbn [index_of length In]. intros Hv. destruct (Nat.eqb_spec v x) as [->|Ne]; [exists 0%nat; split; [reflexivity|lia]|].
  destruct Hv as [Hv|Hv]; [congruence|]. destruct (IH Hv) as (i & -> & Hi). exists (S i). split; [reflexivity|lia].
Qed.

Lemma collect_some {A B} (f : A -> option B) (g : A -> B) l : (forall x, In x l -> f x = Some (g x)) -> collect (map f l) = Some (map g l).
Proof.
  induction l as [|x l IH]; intros F; [reflexivity|]. cbn [map collect]. rewrite (F x (or_introl eq_refl)), IH; [reflexivity|]. intros y Hy. apply F. right. exact Hy.
Qed.

(** All reads of [o] that concern block [b] alone agree with the partition [P]. *)
Record faithful (H : hypergraph) (P : partition) (b : nat) (o : rd -> phg) : Prop := {
  f_n1 : forall v, In v (nodes H) -> in_block (part (o (RNode1 v))) b v = in_block P b v;
  f_n2 : forall v, In v (nodes H) -> in_block (part (o (RNode2 v))) b v = in_block P b v;
  f_p2 : forall e v, In e (edges H) -> In v (pins H e) -> in_block (part (o (RPin2 e v))) b v = in_block P b v;
  f_c1 : forall e, In e (edges H) -> pc (o (RPc1 e)) e b = pin_count H P e b;
  f_c2 : forall e, In e (edges H) -> pc (o (RPc2 e)) e b = pin_count H P e b
}.
(** Both reads of the connectivity tell rightly whether the hyperedge is cut. *)
Definition faithful_cut (H : hypergraph) (P : partition) (b : nat) (o : rd -> phg) : Prop :=
  forall e, In e (edges H) -> 1 < pin_count H P e b ->
    (conn (o (RConn1 e)) e =? 1) = (connectivity H P e =? 1) /\ (conn (o (RConn2 e)) e =? 1) = (connectivity H P e =? 1).

Section Proofs.
Variables (H : hypergraph) (P : partition) (b : nat) (split : bool) (o : rd -> phg).
Hypotheses (WF : wf_hg H) (F : faithful H P b o).

Lemma ns_eq : ns H b o = block_nodes H P b.
Proof. unfold ns, block_nodes. apply filter_ext_in. intros v Hv. apply (f_n1 _ _ _ _ F v Hv). Qed.
Definition at_ (v : nat) : nat := match index_of v (block_nodes H P b) with Some i => i | None => 0%nat end.
Lemma in_block_nodes v : In v (block_nodes H P b) <-> In v (nodes H) /\ P v = Some b.
Proof. unfold block_nodes. rewrite filter_In, in_block_true. reflexivity. Qed.
Lemma block_nodes_nodup : NoDup (block_nodes H P b). Proof. apply NoDup_filter_, WF. Qed.
Lemma at_spec v : In v (nodes H) -> P v = Some b -> index_of v (block_nodes H P b) = Some (at_ v) /\ (at_ v < length (block_nodes H P b))%nat.
Proof. intros Hv Hb. destruct (index_of_in v (block_nodes H P b)) as (i & E & Hi); [apply in_block_nodes; auto|]. unfold at_. rewrite E. auto. Qed.

Lemma push_eq e : In e (edges H) -> forall l, (forall v, In v l -> In v (pins H e)) -> push_pins H b o l e = Some (map at_ (filter (in_block P b) l)).
Proof.
  intros He. induction l as [|v l IH]; intros Hl; [reflexivity|]. cbn [push_pins filter]. unfold o_in at 1.
  rewrite (f_p2 _ _ _ _ F e v He (Hl v (or_introl eq_refl))), IH by (intros x Hx; apply Hl; right; exact Hx).
  destruct (in_block P b v) eqn:Eb; [|reflexivity]. unfold hn_mapping. rewrite ns_eq. apply in_block_true in Eb.
  destruct (at_spec v) as [E _]; [apply (wf_pins_nodes H WF e v He), Hl; left; reflexivity|exact Eb|]. rewrite E. reflexivity.
Qed.

Definition sub_pins (e : nat) : list nat := map at_ (filter (in_block P b) (pins H e)).
Lemma sub_pins_ok e : In e (edges H) -> 1 < pin_count H P e b -> sub_pins e <> [] /\ NoDup (sub_pins e) /\ (forall i, In i (sub_pins e) -> (i < length (block_nodes H P b))%nat) /\
  map Some (sub_pins e) = map (fun v => index_of v (block_nodes H P b)) (filter (in_block P b) (pins H e)).
Proof.
  intros He K. unfold pin_count in K.
  assert (A : forall v, In v (filter (in_block P b) (pins H e)) -> index_of v (block_nodes H P b) = Some (at_ v) /\ (at_ v < length (block_nodes H P b))%nat).
  { intros v Hv. apply filter_In in Hv. destruct Hv as [Hv Hb]. apply in_block_true in Hb. apply at_spec; [apply (wf_pins_nodes H WF e v He Hv)|exact Hb]. }
  unfold sub_pins. split; [|split; [|split]].
  - destruct (filter (in_block P b) (pins H e)); [cbn in K; lia|discriminate].
  - apply (NoDup_map_inv (fun i => nth_error (block_nodes H P b) i)). rewrite map_map.
    assert (E : map (fun v => nth_error (block_nodes H P b) (at_ v)) (filter (in_block P b) (pins H e)) = map Some (filter (in_block P b) (pins H e))).
    { apply map_ext_in. intros v Hv. apply index_of_nth, A, Hv. }
    rewrite E. apply FinFun.Injective_map_NoDup; [intros x y [= ->]; reflexivity|]. apply NoDup_filter_, (wf_pins_nodup H WF e He).
  - intros i Hi. apply in_map_iff in Hi. destruct Hi as (v & <- & Hv). apply A, Hv.
  - rewrite map_map. apply map_ext_in. intros v Hv. symmetry. apply A, Hv.
Qed.

Lemma es_pc e : In e (es H b split o) -> In e (edges H) /\ 1 < pin_count H P e b.
Proof.
  unfold es. rewrite filter_In. intros [He K]. split; [exact He|]. unfold cond1, pinCountInPart in K. rewrite (f_c1 _ _ _ _ F e He) in K. apply andb_true_iff in K. destruct K as [K _]. lia.
Qed.
(** Whatever is read about cut hyperedges: if extraction returns, the nodes are right and the result is well formed. *)
Theorem extract_nodes stable ks mem1 mem2 X mp : ksched_ok (length (es H b split o)) (edge_vector H b split o) ks ->
  extract H b split o stable ks mem1 mem2 = Some (X, mp) ->
  nodes X = seq 0 (length (block_nodes H P b)) /\ (forall v i, mp v = Some i <-> nth_error (block_nodes H P b) i = Some v) /\
  (forall i v, nth_error (block_nodes H P b) i = Some v -> nw X i = nw H v) /\ wf_hg X /\ (forall e, In e (edges X) -> pins X e <> []).
Proof.
  unfold edge_vector, extract. intros OK. destruct (_ && _); [|discriminate].
  assert (Cl : exists evs, collect (map (edge_entry H b split o) (es H b split o)) = Some evs /\ forall ps, In ps evs -> NoDup ps).
  { exists (map (fun e => if cond2 b split o e then sub_pins e else []) (es H b split o)). split.
    - apply collect_some. intros e He. destruct (es_pc e He) as [He1 _]. unfold edge_entry. destruct (cond2 b split o e); [|reflexivity]. apply push_eq; auto.
    - intros ps Hps. apply in_map_iff in Hps. destruct Hps as (e & <- & He). destruct (es_pc e He) as [He1 K]. destruct (cond2 b split o e); [apply (sub_pins_ok e He1 K)|constructor]. }
  destruct Cl as (evs & Ev & ND). rewrite Ev in *. rewrite ns_eq.
  destruct (C36_construct (length (block_nodes H P b)) (length (es H b split o)) evs (Some (edge_weight H b split o)) (Some (node_weight H b o)) stable ks mem1 mem2 OK) as [C1 C2].
  destruct (construct _ _ _ _ _ _ _ _ _) as [X'|]; [|discriminate]. intros [= <- <-].
  assert (V : Some X' <> None) by discriminate. apply C1 in V. destruct V as [_ V].
  destruct (C2 X' eq_refl) as (D1 & D2 & D3 & D4 & _ & D5 & D6 & D7). split; [exact D1|]. split; [|split; [|split]].
  - intros v i. unfold hn_mapping. rewrite ns_eq. split; [apply index_of_nth|apply index_of_nth_inv, block_nodes_nodup].
  - intros i v Ei. rewrite D5. cbn [weight_or_one]. unfold node_weight. rewrite ns_eq, Ei. pose proof (nth_error_In _ _ Ei) as Hv. apply in_block_nodes in Hv.
    unfold o_in. rewrite (f_n2 _ _ _ _ F v) by tauto. rewrite (proj2 (in_block_true P b v)) by tauto. reflexivity.
  - apply D7, ND.
  - intros e He. rewrite D2 in He. apply in_seq in He. apply (V (pins X' e)). apply (nth_error_In evs e). apply D3. lia.
Qed.

Hypothesis FC : split = false -> faithful_cut H P b o.
Lemma cond1_eq e : In e (edges H) -> cond1 b split o e = kept H P b split e.
Proof.
  intros He. unfold cond1, kept, pinCountInPart. rewrite (f_c1 _ _ _ _ F e He). destruct (Z.ltb_spec 1 (pin_count H P e b)) as [L|L]; [|reflexivity]. cbn [andb].
  destruct (split) eqn:S; [reflexivity|]. apply (FC eq_refl e He L).
Qed.
Lemma cond2_eq e : In e (edges H) -> cond2 b split o e = kept H P b split e.
Proof.
  intros He. unfold cond2, kept, pinCountInPart. rewrite (f_c2 _ _ _ _ F e He). destruct (Z.ltb_spec 1 (pin_count H P e b)) as [L|L]; [|reflexivity]. cbn [andb].
  destruct (split) eqn:S; [reflexivity|]. apply (FC eq_refl e He L).
Qed.
Lemma es_eq : es H b split o = block_edges H P b split.
Proof. unfold es, block_edges. apply filter_ext_in. apply cond1_eq. Qed.

Lemma kept_pc e : In e (block_edges H P b split) -> In e (edges H) /\ 1 < pin_count H P e b.
Proof. unfold block_edges. rewrite filter_In. intros [He K]. split; [exact He|]. unfold kept in K. apply andb_true_iff in K. destruct K as [K _]. lia. Qed.
Lemma evs_eq : collect (map (edge_entry H b split o) (es H b split o)) = Some (map sub_pins (block_edges H P b split)).
Proof.
  rewrite es_eq. apply collect_some. intros e He. unfold block_edges in He. apply filter_In in He. destruct He as [He K]. unfold edge_entry.
  rewrite (cond2_eq e He), K. apply push_eq; [exact He|]. auto.
Qed.

(** Under faithful observations extraction succeeds with the block's sub-hypergraph, for every schedule of the
    construction. *)
Theorem extract_ok stable ks mem1 mem2 : ksched_ok (length (es H b split o)) (edge_vector H b split o) ks ->
  exists X, extract H b split o stable ks mem1 mem2 = Some (X, hn_mapping H b o) /\ extracted H P b split X (hn_mapping H b o) /\
    (forall ac i, extracted_ac H b split o ac i = match nth_error (block_edges H P b split) i with Some e => ac e | None => false end).
Proof.
  unfold edge_vector, extract. rewrite evs_eq, ns_eq, es_eq. intros OK.
  assert (S1 : forallb (no_stray_edge H b split o) (edges H) = true).
  { apply forallb_forall. intros e He. unfold no_stray_edge. rewrite (cond2_eq e He), es_eq. destruct (kept H P b split e) eqn:K; [|reflexivity].
    cbn [negb orb]. apply mem_In. unfold block_edges. apply filter_In. auto. }
  assert (S2 : forallb (no_stray_node H b o) (nodes H) = true).
  { apply forallb_forall. intros v Hv. unfold no_stray_node, o_in. rewrite (f_n2 _ _ _ _ F v Hv), ns_eq. destruct (in_block P b v) eqn:K; [|reflexivity].
    cbn [negb orb]. apply mem_In. apply in_block_nodes. apply in_block_true in K. auto. }
  rewrite S1, S2. cbn [andb].
  set (N := length (block_nodes H P b)) in *. set (M := length (block_edges H P b split)) in *. set (E := map sub_pins (block_edges H P b split)) in *.
  destruct (C36_construct N M E (Some (edge_weight H b split o)) (Some (node_weight H b o)) stable ks mem1 mem2 OK) as [C1 C2].
  assert (V : valid_input N M E).
  { split; [unfold E, M; apply map_length|]. intros ps Hps. unfold E in Hps. apply in_map_iff in Hps. destruct Hps as (e & <- & He). destruct (kept_pc e He) as [He1 K]. destruct (sub_pins_ok e He1 K) as (A & _ & B & _). auto. }
  apply C1 in V. destruct (construct _ _ _ _ _ _ _ _ _) as [X|]; [|congruence]. exists X. split; [reflexivity|].
  destruct (C2 X eq_refl) as (D1 & D2 & D3 & D4 & _ & D5 & D6 & D7). split.
  - assert (PX : forall i e, nth_error (block_edges H P b split) i = Some e -> pins X i = sub_pins e).
    { intros i e Ei. assert (Hi : (i < M)%nat) by (apply nth_error_Some; congruence). specialize (D3 i Hi). unfold E in D3. rewrite (map_nth_error _ _ _ Ei) in D3. congruence. }
    constructor.
    + exact D1.
    + intros v i. unfold hn_mapping. rewrite ns_eq. split; [apply index_of_nth|apply index_of_nth_inv, block_nodes_nodup].
    + exact D2.
    + intros i e Ei. rewrite (PX i e Ei). unfold hn_mapping. rewrite ns_eq. apply nth_error_In in Ei. destruct (kept_pc e Ei) as [He1 K]. apply (sub_pins_ok e He1 K).
    + intros i e Ei. rewrite D6. cbn [weight_or_one]. unfold edge_weight. rewrite es_eq, Ei. pose proof (nth_error_In _ _ Ei) as He. unfold block_edges in He. apply filter_In in He.
      rewrite (cond2_eq e) by tauto. destruct He as [_ ->]. reflexivity.
    + intros i v Ei. rewrite D5. cbn [weight_or_one]. unfold node_weight. rewrite ns_eq, Ei. pose proof (nth_error_In _ _ Ei) as Hv. apply in_block_nodes in Hv.
      unfold o_in. rewrite (f_n2 _ _ _ _ F v) by tauto. rewrite (proj2 (in_block_true P b v)) by tauto. reflexivity.
    + apply D7. intros ps Hps. unfold E in Hps. apply in_map_iff in Hps. destruct Hps as (e & <- & He). destruct (kept_pc e He) as [He1 K]. apply (sub_pins_ok e He1 K).
  - intros ac i. unfold extracted_ac. rewrite es_eq. reflexivity.
Qed.
End Proofs.

(** ** Which observations are faithful *)
(** (a) A partition at rest: all reads see one consistent partition. *)
Lemma faithful_rest H s b : wf_hg H -> consistent H s -> (b < pk s)%nat -> faithful H (part s) b (fun _ => s) /\ faithful_cut H (part s) b (fun _ => s).
Proof.
  intros WF C Hb. split; [constructor; intros; try reflexivity; apply (c_pc H s C e b); assumption|]. intros e He _. rewrite (conn_eq H s e WF C He). auto.
Qed.

(** (b) Moves of other threads that neither leave nor enter block [b]. *)
Definition avoids (b : nat) (l : label) : Prop := match l with Begin _ m => m_from m <> b /\ m_to m <> b | Adv _ => True end.
Definition untouched (b : nat) (s : phg) (st : cst) : Prop :=
  (forall v, in_block (part (sh st)) b v = in_block (part s) b v) /\ (forall e, pc (sh st) e b = pc s e b) /\
  (forall i m, mv_of (th st i) = Some m -> m_from m <> b /\ m_to m <> b).

Lemma dec_other s e c s' fa b e' : decrementPinCountOfBlock s e c = Some (s', fa) -> c <> b -> part s' = part s /\ pc s' e' b = pc s e' b.
Proof.
  unfold decrementPinCountOfBlock. destruct (_ && _); [|discriminate]. intros [= <- <-] Hb. destruct (_ =? 0); cbn; (split; [reflexivity|]); rewrite upd2_eq;
    destruct (Nat.eqb_spec b c); [congruence|rewrite andb_false_r; reflexivity|congruence|rewrite andb_false_r; reflexivity].
Qed.
Lemma inc_other s e c s' fa b e' : incrementPinCountOfBlock s e c = Some (s', fa) -> c <> b -> part s' = part s /\ pc s' e' b = pc s e' b.
Proof.
  unfold incrementPinCountOfBlock. destruct (_ <? _)%nat; [|discriminate]. intros [= <- <-] Hb. destruct (_ =? 1); cbn; (split; [reflexivity|]); rewrite upd2_eq;
    destruct (Nat.eqb_spec b c); [congruence|rewrite andb_false_r; reflexivity|congruence|rewrite andb_false_r; reflexivity].
Qed.

Lemma untouched_step H n mops b s k st eff a st' : wf_hg H -> Base H k n st eff -> untouched b s st -> avoids b a -> cstep H n mops st a = Some st' -> untouched b s st'.
Proof.
  intros WF B (U1 & U2 & U3) A Hs.
  assert (TH : forall i t, (forall m, mv_of t = Some m -> m_from m <> b /\ m_to m <> b) -> forall j m, mv_of (upd (th st) i t j) = Some m -> m_from m <> b /\ m_to m <> b).
  { intros i t Ht j m. unfold upd. destruct (Nat.eqb j i); [apply Ht|apply U3]. }
  destruct a as [i m|i]; cbn [cstep] in Hs.
  - destruct (th st i) eqn:Et; try discriminate. destruct (_ && _) eqn:G; [|discriminate]. injection Hs as <-. split; [exact U1|]. split; [exact U2|].
    cbn [th set_th set_sh]. apply TH. intros m' [= <-]. exact A.
  - destruct (i <? n)%nat eqn:Hi; [|discriminate]. apply Nat.ltb_lt in Hi. unfold adv in Hs.
    pose proof (U3 i) as Ui. pose proof (b_cur H k n st eff B i) as Bc.
    destruct (th st i) as [|m a|m|m rem|m e rem|m e rem fa|m rem su|m rem ops] eqn:Et; try discriminate.
    all: specialize (Ui m eq_refl); assert (Tm : forall m', Some m = Some m' -> m_from m' <> b /\ m_to m' <> b) by (intros m' [= <-]; exact Ui).
    + destruct (a <=? m_max m); injection Hs as <-.
      * split; [|split; [exact U2|cbn [th set_th set_sh]; apply TH; exact Tm]]. intros v. cbn [sh set_th set_sh part set_part]. rewrite <- U1.
        specialize (Bc m Hi eq_refl). cbn [stored] in Bc. unfold in_block, upd. destruct (Nat.eqb_spec v (m_u m)) as [Q|Q]; [|reflexivity]. rewrite Q, Bc.
        destruct (Nat.eqb_spec (m_to m) b); [tauto|]. destruct (Nat.eqb_spec (m_from m) b); [tauto|reflexivity].
      * split; [exact U1|]. split; [exact U2|]. cbn [th set_th set_sh]. apply TH. discriminate.
    + injection Hs as <-. split; [exact U1|]. split; [exact U2|]. cbn [th set_th set_sh]. apply TH. exact Tm.
    + destruct rem as [|e rem].
      * injection Hs as <-. split; [exact U1|]. split; [exact U2|]. cbn [th set_th set_sh]. apply TH. discriminate.
      * destruct (lk st e); [discriminate|]. injection Hs as <-. split; [exact U1|]. split; [exact U2|]. cbn [th set_th set_lk]. apply TH. exact Tm.
    + destruct (decrementPinCountOfBlock _ _ _) as [[s' fa]|] eqn:E; [|discriminate]. injection Hs as <-. split; [|split; [|cbn [th set_th set_sh]; apply TH; exact Tm]]; intros x; cbn [sh set_th set_sh].
      * destruct (dec_other _ _ _ _ _ b x E (proj1 Ui)) as [-> _]. apply U1.
      * destruct (dec_other _ _ _ _ _ b x E (proj1 Ui)) as [_ ->]. apply U2.
    + destruct (incrementPinCountOfBlock _ _ _) as [[s' ta]|] eqn:E; [|discriminate]. injection Hs as <-. split; [|split; [|cbn [th set_th set_sh]; apply TH; exact Tm]]; intros x; cbn [sh set_th set_sh].
      * destruct (inc_other _ _ _ _ _ b x E (proj2 Ui)) as [-> _]. apply U1.
      * destruct (inc_other _ _ _ _ _ b x E (proj2 Ui)) as [_ ->]. apply U2.
    + injection Hs as <-. split; [exact U1|]. split; [exact U2|]. cbn [th set_th set_lk]. apply TH. exact Tm.
    + destruct ops as [|op ops].
      * injection Hs as <-. split; [exact U1|]. split; [exact U2|]. cbn [th set_th]. apply TH. exact Tm.
      * destruct (exec_mop _ _ _ _) as [c' ops']. injection Hs as <-. split; [exact U1|]. split; [exact U2|]. cbn [th set_th]. apply TH. exact Tm.
Qed.

Lemma untouched_run H n mops b s c l st : started H s -> Forall (avoids b) l -> crun H n mops (cinit s c) l = Some st -> untouched b s st.
Proof.
  intros (WF & C & HC) A E.
  assert (X : forall l st0 eff, Forall (avoids b) l -> Base H (pk s) n st0 eff -> untouched b s st0 -> crun H n mops st0 l = Some st -> untouched b s st).
  { clear l A E. unfold crun. induction l as [|a l IH]; intros st0 eff A B U E; cbn in E; [injection E as <-; exact U|]. inversion A; subst.
    destruct (cstep H n mops st0 a) as [st1|] eqn:E1; [|discriminate]. eapply IH; [assumption| | |exact E]; [eapply step_base; eauto|eapply untouched_step; eauto]. }
  apply (X l (cinit s c) (fun _ => part s) A (base_init H n mops s c C HC)); [|exact E]. split; [reflexivity|]. split; [reflexivity|]. intros i m. discriminate.
Qed.

(** The observations of one extraction while other threads move nodes between other blocks: every read sees the shared
    state after some prefix of the interleaved execution [l]. *)
Definition observes (H : hypergraph) (n : nat) mops (s : phg) (c : GainCache.cache) (l : list label) (o : rd -> phg) (P : list label -> Prop) : Prop :=
  forall r, exists l1 l2 st, l = l1 ++ l2 /\ P l1 /\ crun H n mops (cinit s c) l1 = Some st /\ o r = sh st.

Lemma faithful_moving H n mops s c l o b : started H s -> (b < pk s)%nat ->
  observes H n mops s c l o (Forall (avoids b)) -> faithful H (part s) b o.
Proof.
  intros S Hb O.
  assert (U : forall r, (forall v, in_block (part (o r)) b v = in_block (part s) b v) /\ (forall e, pc (o r) e b = pc s e b)).
  { intros r. destruct (O r) as (l1 & l2 & st & _ & A & E & ->). destruct (untouched_run H n mops b s c l1 st S A E) as (U1 & U2 & _). auto. }
  destruct S as (WF & C & HC). constructor; intros; try discriminate; try apply U; rewrite (proj2 (U _)); apply (c_pc H s C e b); assumption.
Qed.

(** The cut test is reliable if no other thread is in the middle of a move when the connectivity is read. *)
Definition quiet (H : hypergraph) (n : nat) mops (s : phg) (c : GainCache.cache) (b : nat) (l : list label) : Prop :=
  Forall (avoids b) l /\ forall st, crun H n mops (cinit s c) l = Some st -> quiescent n st.

Lemma one_block H P Q e b k : NoDup (pins H e) -> (forall v, In v (pins H e) -> exists c, P v = Some c /\ (c < k)%nat) -> (forall v, In v (pins H e) -> exists c, Q v = Some c /\ (c < k)%nat) ->
  (forall v, in_block P b v = in_block Q b v) -> 1 < pin_count H P e b -> (connectivity H P e =? 1) = (connectivity H Q e =? 1).
Proof.
  intros ND CP CQ E L.
  assert (X : forall R, (forall v, In v (pins H e) -> exists c, R v = Some c /\ (c < k)%nat) -> 1 < pin_count H R e b -> (connectivity H R e =? 1) = forallb (in_block R b) (pins H e)).
  { intros R CR LR. apply eq_true_iff_eq. rewrite forallb_forall, Z.eqb_eq. unfold connectivity.
    assert (Hb : In b (blocks_of H R e)) by (apply in_blocks_of; lia).
    split.
    - intros Eq v Hv. destruct (CR v Hv) as (d & Ed & _). apply in_block_true. rewrite Ed. f_equal.
      assert (Hd : In d (blocks_of H R e)) by (apply in_blocks_of, pin_count_pos_iff; eauto).
      destruct (blocks_of H R e) as [|x [|y r]]; cbn in Eq; [lia| |lia]. destruct Hb as [<-|[]]. destruct Hd as [<-|[]]. reflexivity.
    - intros A. assert (Inc : forall d, In d (blocks_of H R e) -> d = b).
      { intros d Hd. apply in_blocks_of, pin_count_pos_iff in Hd. destruct Hd as (v & Hv & Ed). specialize (A v Hv). apply in_block_true in A. congruence. }
      pose proof (blocks_of_nodup H R e) as N. destruct (blocks_of H R e) as [|x [|y r]]; [destruct Hb|reflexivity|].
      exfalso. apply NoDup_cons_iff in N. destruct N as [N _]. apply N. left. rewrite (Inc x), (Inc y); cbn; auto. }
  rewrite (X P CP L), (X Q CQ).
  - apply eq_true_iff_eq. rewrite !forallb_forall. split; intros A v Hv; [rewrite <- E|rewrite E]; apply A, Hv.
  - replace (pin_count H Q e b) with (pin_count H P e b); [exact L|]. unfold pin_count. do 2 f_equal. apply filter_ext. exact E.
Qed.

Lemma faithful_quiet H n mops s c l o b : started H s -> (b < pk s)%nat ->
  observes H n mops s c l o (quiet H n mops s c b) -> faithful H (part s) b o /\ faithful_cut H (part s) b o.
Proof.
  intros S Hb O. split.
  - apply (faithful_moving H n mops s c l o b S Hb). intros r. destruct (O r) as (l1 & l2 & st & El & [A _] & E & Eo). exists l1, l2, st. auto.
  - intros e He L.
    assert (X : forall r, (conn (o r) e =? 1) = (connectivity H (part s) e =? 1)).
    { intros r. destruct (O r) as (l1 & l2 & st & El & [A Q] & E & ->). specialize (Q st E). destruct (untouched_run H n mops b s c l1 st S A E) as (U1 & _ & _).
      destruct S as (WF & C & HC). destruct (conc_quiescent H n mops WF s c l1 st C HC E Q) as (Ek & Cs & HCs & _). rewrite (conn_eq H (sh st) e WF Cs He). symmetry.
      apply (one_block H (part s) (part (sh st)) e b (pk s)); [apply (wf_pins_nodup H WF e He)| | |intros v; symmetry; apply U1|exact L]; intros v Hv; [apply HC|apply HCs]; apply (wf_pins_nodes H WF e v He Hv). }
    split; apply X.
Qed.
