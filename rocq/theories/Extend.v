(** Extending the number of blocks: all blocks of a partition are extracted at
    once, each block that still has to be split is bipartitioned, and the
    bipartitions are applied to the partitioned hypergraph.

    /repo/mt-kahypar/datastructures/partitioned_hypergraph.h:1023-1159
    (extractAllBlocks), /repo/mt-kahypar/partition/deep_multilevel.cpp:388-400
    (adaptWeightsOfNonCutEdges), 485-524 (apply_bipartitions_to_hypergraph),
    538-632 (bipartition_each_block).

    The partition does not change during the extraction (no refinement runs), so
    reads of it are functions of the partition.  Community ids (1147-1153) are
    not modelled. *)
From Coq Require Import List Arith Lia Bool ZArith Permutation.
From Verif Require Import Base Spec SpecLemmas Construct Extract RB RBCost Deep DeepTree.
Import ListNotations.

Section ExtractAll.
Variables (H : hypergraph) (P : partition) (k : nat) (split : bool).
(** [no]: the order in which the nodes take a number from the counter of their
    block (1033-1041 in the order of the ids, 1056-1063 any order); [eo b]: the
    order in which the hyperedges are streamed to block b (1044-1051, 1064-1078). *)
Variables (no : list nat) (eo : nat -> list nat).

(** 1033-1041, 1056-1063: nodes_cnt and hn_mapping.  (A node without a block would
    index the counters with -1; the theorems are about complete partitions.) *)
Fixpoint numbering (cnt : nat -> nat) (mp : nat -> option nat) (l : list nat) : (nat -> nat) * (nat -> option nat) :=
  match l with
  | [] => (cnt, mp)
  | v :: r =>
    match P v with
    | Some b => if (b <? k)%nat then numbering (upd cnt b (S (cnt b))) (upd mp v (Some (cnt b))) r else numbering cnt mp r
    | None => numbering cnt mp r
    end
  end.
Definition nodes_cnt : nat -> nat := fst (numbering (fun _ => 0%nat) (fun _ => None) no).
Definition all_mapping : nat -> option nat := snd (numbering (fun _ => 0%nat) (fun _ => None) no).

(** 1044-1051, 1064-1078: a hyperedge is visited once for each block of its
    connectivity set *)
Definition hes2block (b : nat) : list nat :=
  filter (fun e => mem b (blocks_of H P e) && ((1 <? pin_count H P e b) && (split || (connectivity H P e =? 1)))) (eo b).
(** 1106-1116; an invalid entry of the mapping would be written to the hypergraph *)
Definition all_edge_entry (b e : nat) : option (list nat) := collect (map all_mapping (filter (in_block P b) (pins H e))).
Definition he_weight (b i : nat) : Z := match nth_error (hes2block b) i with Some e => ew H e | None => 0 end.
(** 1117-1125 *)
Definition hn_weight (b : nat) : nat -> Z :=
  write_list (fun _ => 0) (flat_map (fun v => match all_mapping v with Some i => if in_block P b v then [(i, nw H v)] else [] | None => [] end) (nodes H)).
(** 1126-1135 *)
Definition all_ac (b : nat) (ac : nat -> bool) (i : nat) : bool := match nth_error (hes2block b) i with Some e => ac e | None => false end.
(** 1138-1144 *)
Definition all_edge_vector (b : nat) : option (list (list nat)) := collect (map (all_edge_entry b) (hes2block b)).
Definition extract_block (b : nat) (stable : bool) (ks : ksched) (m1 m2 : nat -> nat) : option hypergraph :=
  match all_edge_vector b with
  | Some evs => construct (nodes_cnt b) (length (hes2block b)) evs (Some (he_weight b)) (Some (hn_weight b)) stable ks m1 m2
  | None => None
  end.
End ExtractAll.

(** 485-503: the block of a node; [Q b] is the bipartition of the extracted block b *)
Definition apply_bipartitions (l : list nat) (P : partition) (mp : nat -> option nat) (Q : nat -> partition) : partition :=
  fun v => match P v with
           | Some b => Some (new_block l b (match mp v with Some i => match Q b i with Some s => s | None => 1%nat end | None => 1%nat end))
           | None => None
           end.

(** ** Specification: the sub-hypergraph of a block *)
(** [ns], [es]: the nodes and hyperedges of the sub-hypergraph by their new ids *)
Record block_of (H : hypergraph) (P : partition) (b : nat) (split : bool) (ns es : list nat) (X : hypergraph) (mp : nat -> option nat) : Prop := {
  b_ns : Permutation ns (block_nodes H P b);
  b_es : Permutation es (block_edges H P b split);
  b_nodes : nodes X = seq 0 (length ns);
  b_edges : edges X = seq 0 (length es);
  b_map : forall v i, In v (nodes H) -> P v = Some b -> (mp v = Some i <-> nth_error ns i = Some v);
  b_pins : forall i e, nth_error es i = Some e -> map Some (pins X i) = map mp (filter (in_block P b) (pins H e));
  b_ew : forall i e, nth_error es i = Some e -> ew X i = ew H e;
  b_nw : forall i v, nth_error ns i = Some v -> nw X i = nw H v;
  b_wf : wf_hg X
}.

(** ** The extraction *)
Section ExtractProofs.
Variables (H : hypergraph) (P : partition) (k : nat) (split : bool) (no : list nat) (eo : nat -> list nat).

Lemma numbering_spec : forall l cnt mp, NoDup l ->
  (forall b, (b < k)%nat -> fst (numbering P k cnt mp l) b = (cnt b + length (filter (in_block P b) l))%nat) /\
  (forall v, ~ In v l -> snd (numbering P k cnt mp l) v = mp v) /\
  (forall v b, In v l -> P v = Some b -> (b < k)%nat -> exists i, snd (numbering P k cnt mp l) v = Some (cnt b + i)%nat /\ nth_error (filter (in_block P b) l) i = Some v).
Proof.
  induction l as [|a l IH]; intros cnt mp ND.
  - cbn. repeat split; auto. intros v b [].
  - apply NoDup_cons_iff in ND. destruct ND as [Na ND].
    assert (Sk : forall b, in_block P b a = false -> filter (in_block P b) (a :: l) = filter (in_block P b) l) by (intros b E; cbn; now rewrite E).
    assert (Tk : forall b, in_block P b a = true -> filter (in_block P b) (a :: l) = a :: filter (in_block P b) l) by (intros b E; cbn; now rewrite E).
    cbn [numbering]. destruct (P a) as [c|] eqn:Ea; [destruct (c <? k)%nat eqn:Ec|].
    + apply Nat.ltb_lt in Ec. destruct (IH (upd cnt c (S (cnt c))) (upd mp a (Some (cnt c))) ND) as (A & B & C). split; [|split].
      * intros b Hb. rewrite A by auto. destruct (Nat.eq_dec b c) as [->|N].
        -- rewrite upd_same, Tk by (now apply in_block_true). cbn. lia.
        -- rewrite upd_other, Sk by (auto; apply in_block_false; congruence). reflexivity.
      * intros v Hv. rewrite B by (intros X; apply Hv; right; auto). apply upd_other. intros ->. apply Hv. left; auto.
      * intros v b Hv Eb Hb. destruct (Nat.eq_dec v a) as [->|Nv].
        -- rewrite Ea in Eb. injection Eb as <-. exists 0%nat. rewrite B, upd_same, Tk by (auto; now apply in_block_true). split; [f_equal; lia|reflexivity].
        -- destruct Hv as [->|Hv]; [congruence|]. destruct (C v b Hv Eb Hb) as (i & E1 & E2). destruct (Nat.eq_dec b c) as [->|N].
           ++ exists (S i). rewrite E1, upd_same, Tk by (now apply in_block_true). split; [f_equal; lia|exact E2].
           ++ exists i. rewrite E1, upd_other, Sk by (auto; apply in_block_false; congruence). auto.
    + apply Nat.ltb_ge in Ec. destruct (IH cnt mp ND) as (A & B & C). split; [|split].
      * intros b Hb. rewrite A, Sk by (auto; apply in_block_false; intros X; rewrite Ea in X; injection X as ->; lia). reflexivity.
      * intros v Hv. apply B. intros X; apply Hv; right; auto.
      * intros v b Hv Eb Hb. destruct Hv as [->|Hv]; [rewrite Ea in Eb; injection Eb as ->; lia|]. rewrite Sk by (apply in_block_false; intros X; rewrite Ea in X; injection X as ->; lia). apply C; auto.
    + destruct (IH cnt mp ND) as (A & B & C). split; [|split].
      * intros b Hb. rewrite A, Sk by (auto; apply in_block_false; congruence). reflexivity.
      * intros v Hv. apply B. intros X; apply Hv; right; auto.
      * intros v b Hv Eb Hb. destruct Hv as [->|Hv]; [congruence|]. rewrite Sk by (apply in_block_false; congruence). apply C; auto.
Qed.

Hypotheses (WF : wf_hg H) (PN : Permutation no (nodes H)) (PE : forall b, (b < k)%nat -> Permutation (eo b) (edges H)).

Definition ns_ (b : nat) : list nat := filter (in_block P b) no.
Lemma no_nodup : NoDup no. Proof. apply (Permutation_NoDup (Permutation_sym PN)), WF. Qed.
Lemma cnt_eq b : (b < k)%nat -> nodes_cnt P k no b = length (ns_ b).
Proof. intros Hb. unfold nodes_cnt. rewrite (proj1 (numbering_spec no _ _ no_nodup) b Hb). reflexivity. Qed.
Lemma ns_perm b : Permutation (ns_ b) (block_nodes H P b).
Proof.
  unfold ns_, block_nodes. apply NoDup_Permutation; [apply NoDup_filter_, no_nodup|apply NoDup_filter_, WF|].
  intros v. rewrite !filter_In. assert (In v no <-> In v (nodes H)) by (split; apply Permutation_in; [exact PN|apply Permutation_sym, PN]). tauto.
Qed.
Lemma ns_nodup b : NoDup (ns_ b). Proof. apply NoDup_filter_, no_nodup. Qed.
Lemma mapping_eq v b i : In v (nodes H) -> P v = Some b -> (b < k)%nat -> (all_mapping P k no v = Some i <-> nth_error (ns_ b) i = Some v).
Proof.
  intros Hv Eb Hb. destruct (proj2 (proj2 (numbering_spec no (fun _ => 0%nat) (fun _ => None) no_nodup)) v b) as (j & E1 & E2); auto.
  { apply (Permutation_in v (Permutation_sym PN)), Hv. }
  unfold all_mapping. rewrite E1. cbn [Nat.add]. fold (ns_ b) in E2. split; [intros [= <-]; exact E2|]. intros E. f_equal.
  apply (proj1 (NoDup_nth_error (ns_ b)) (ns_nodup b)); [apply nth_error_Some; congruence|]. congruence.
Qed.
Lemma mapping_some v b : In v (nodes H) -> P v = Some b -> (b < k)%nat -> exists i, all_mapping P k no v = Some i /\ (i < length (ns_ b))%nat.
Proof.
  intros Hv Eb Hb. assert (In v (ns_ b)) as Y by (apply filter_In; split; [apply (Permutation_in v (Permutation_sym PN)), Hv|now apply in_block_true]).
  apply In_nth_error in Y. destruct Y as (i & E). exists i. split; [now apply (mapping_eq v b)|apply nth_error_Some; congruence].
Qed.
Lemma hes_perm b : (b < k)%nat -> Permutation (hes2block H P split eo b) (block_edges H P b split).
Proof.
  intros Hb. unfold hes2block, block_edges. apply NoDup_Permutation.
  - apply NoDup_filter_. apply (Permutation_NoDup (Permutation_sym (PE b Hb))), WF.
  - apply NoDup_filter_, WF.
  - intros e. rewrite !filter_In. assert (In e (eo b) <-> In e (edges H)) by (split; apply Permutation_in; [exact (PE b Hb)|apply Permutation_sym, (PE b Hb)]).
    assert (mem b (blocks_of H P e) && ((1 <? pin_count H P e b) && (split || (connectivity H P e =? 1))) = kept H P b split e); [|rewrite H1; tauto].
    unfold kept. destruct (Z.ltb_spec 1 (pin_count H P e b)) as [L|L]; [|now rewrite andb_false_r].
    rewrite (proj2 (mem_In _ _)); [reflexivity|]. apply in_blocks_of. lia.
Qed.
Definition idx (v : nat) : nat := match all_mapping P k no v with Some i => i | None => 0%nat end.
Lemma entry_eq b e : (b < k)%nat -> In e (edges H) ->
  all_edge_entry H P k no b e = Some (map idx (filter (in_block P b) (pins H e))) /\
  map Some (map idx (filter (in_block P b) (pins H e))) = map (all_mapping P k no) (filter (in_block P b) (pins H e)) /\
  NoDup (map idx (filter (in_block P b) (pins H e))) /\ (forall i, In i (map idx (filter (in_block P b) (pins H e))) -> (i < length (ns_ b))%nat).
Proof.
  intros Hb He.
  assert (A : forall v, In v (filter (in_block P b) (pins H e)) -> In v (nodes H) /\ P v = Some b /\ all_mapping P k no v = Some (idx v) /\ (idx v < length (ns_ b))%nat).
  { intros v Hv. apply filter_In in Hv. destruct Hv as [Hv Eb]. apply in_block_true in Eb. assert (Hn : In v (nodes H)) by (apply (wf_pins_nodes H WF e v He Hv)).
    destruct (mapping_some v b Hn Eb Hb) as (i & E & L). unfold idx. rewrite E. auto. }
  split; [unfold all_edge_entry; apply collect_some; intros v Hv; apply A, Hv|]. split; [|split].
  - rewrite map_map. apply map_ext_in. intros v Hv. symmetry. apply A, Hv.
  - apply (NoDup_map_inv (fun i => nth_error (ns_ b) i)). rewrite map_map.
    rewrite (map_ext_in _ Some); [apply FinFun.Injective_map_NoDup; [intros x y [= ->]; reflexivity|apply NoDup_filter_, (wf_pins_nodup H WF e He)]|].
    intros v Hv. destruct (A v Hv) as (A1 & A2 & A3 & _). now apply (mapping_eq v b).
  - intros i Hi. apply in_map_iff in Hi. destruct Hi as (v & <- & Hv). apply A, Hv.
Qed.

(** ** Theorem: every block is extracted as the sub-hypergraph it induces, for
    every order of the nodes and hyperedges and every schedule of the construction *)
Theorem C88_extract_all b stable ks m1 m2 : (b < k)%nat ->
  (forall evs, all_edge_vector H P k split no eo b = Some evs -> ksched_ok (length (hes2block H P split eo b)) evs ks) ->
  exists X, extract_block H P k split no eo b stable ks m1 m2 = Some X /\
    block_of H P b split (filter (in_block P b) no) (hes2block H P split eo b) X (all_mapping P k no) /\
    (forall ac i, all_ac H P split eo b ac i = match nth_error (hes2block H P split eo b) i with Some e => ac e | None => false end).
Proof.
  intros Hb OK. set (es := hes2block H P split eo b) in *. set (E := map (fun e => map idx (filter (in_block P b) (pins H e))) es).
  assert (ES : forall e, In e es -> In e (edges H) /\ 1 < pin_count H P e b).
  { intros e He. apply (Permutation_in e (hes_perm b Hb)) in He. unfold block_edges in He. apply filter_In in He. destruct He as [He K]. split; [exact He|].
    unfold kept in K. apply andb_true_iff in K. destruct K as [K _]. lia. }
  assert (EV : all_edge_vector H P k split no eo b = Some E) by (apply collect_some; intros e He; apply entry_eq; [exact Hb|apply ES, He]).
  unfold extract_block. rewrite EV. fold es. specialize (OK E EV). rewrite cnt_eq by auto.
  destruct (C36_construct (length (ns_ b)) (length es) E (Some (he_weight H P split eo b)) (Some (hn_weight H P k no b)) stable ks m1 m2 OK) as [C1 C2].
  assert (V : valid_input (length (ns_ b)) (length es) E).
  { split; [unfold E; apply map_length|]. intros ps Hps. unfold E in Hps. apply in_map_iff in Hps. destruct Hps as (e & <- & He). destruct (ES e He) as [He1 K].
    destruct (entry_eq b e Hb He1) as (_ & _ & _ & L). split; [|exact L]. unfold pin_count in K. destruct (filter _ _); [cbn in K; lia|discriminate]. }
  apply C1 in V. destruct (construct _ _ _ _ _ _ _ _ _) as [X|]; [|congruence]. exists X. split; [reflexivity|]. split; [|reflexivity].
  destruct (C2 X eq_refl) as (D1 & D2 & D3 & D4 & _ & D5 & D6 & D7).
  assert (PX : forall i e, nth_error es i = Some e -> pins X i = map idx (filter (in_block P b) (pins H e))).
  { intros i e Ei. assert (Hi : (i < length es)%nat) by (apply nth_error_Some; congruence). specialize (D3 i Hi). unfold E in D3. rewrite (map_nth_error _ _ _ Ei) in D3. congruence. }
  constructor.
  - apply ns_perm.
  - apply hes_perm, Hb.
  - exact D1.
  - exact D2.
  - intros v i Hv Eb. now apply mapping_eq.
  - intros i e Ei. rewrite (PX i e Ei). apply entry_eq; [exact Hb|]. apply ES, (nth_error_In _ _ Ei).
  - intros i e Ei. rewrite D6. cbn [weight_or_one]. unfold he_weight. fold es. now rewrite Ei.
  - intros i v Ei. rewrite D5. cbn [weight_or_one]. fold (ns_ b) in Ei. pose proof (nth_error_In _ _ Ei) as Hv. apply (Permutation_in v (ns_perm b)) in Hv. apply in_block_nodes in Hv. destruct Hv as [Hv Eb].
    assert (Em : all_mapping P k no v = Some i) by (now apply (mapping_eq v b)). unfold hn_weight. apply write_list_spec.
    + apply in_flat_map. exists v. split; [exact Hv|]. rewrite Em, (proj2 (in_block_true P b v) Eb). left. reflexivity.
    + intros w Hw. apply in_flat_map in Hw. destruct Hw as (u & Hu & Hw). destruct (all_mapping P k no u) as [j|] eqn:Eu; [|destruct Hw]. destruct (in_block P b u) eqn:Ebu; [|destruct Hw].
      destruct Hw as [[= -> <-]|[]]. apply in_block_true in Ebu. apply (mapping_eq u b i Hu Ebu Hb) in Eu. congruence.
  - apply D7. intros ps Hps. unfold E in Hps. apply in_map_iff in Hps. destruct Hps as (e & <- & He). apply entry_eq; [exact Hb|apply ES, He].
Qed.
End ExtractProofs.
