(** RestoreExamples.v - concrete runs of the pre- and postprocessing (Restore.v) and the two refuted readings of C31. *)
From Verif Require Import Base Spec SpecLemmas WfCheck PHG PHGProofs PropsA Construct EdgeRemoval Restore RestoreProofs.

(** A partitioner that assigns all nodes by a given function, through the API. *)
Definition assign_ops (H : hypergraph) (f : nat -> nat) : list phg_op := map (fun v => OSetOnly v (f v)) (nodes H) ++ [OInit [nodes H] (edges H)].
Definition assign_alg (k : nat) (f : nat -> nat) (H : hypergraph) : phg := match phg_run H (phg_init k) (assign_ops H f) with Some s => s | None => phg_init k end.

Lemma setonly_run H k f : (forall v, (f v < k)%nat) -> forall l s, pk s = k -> NoDup l -> (forall v, In v l -> part s v = None) ->
  exists s', fold_opt (phg_step H) s (map (fun v => OSetOnly v (f v)) l) = Some s' /\ pk s' = k /\ wt s' = wt s /\ pc s' = pc s /\ cs s' = cs s /\
    forall v, part s' v = if mem v l then Some (f v) else part s v.
Proof.
  intros F. induction l as [|v l IH]; intros s K ND N; [exists s; cbn; auto 8|]. apply NoDup_cons_iff in ND. destruct ND as [Nv ND]. cbn [map fold_opt phg_step].
  unfold setOnlyNodePart. rewrite K. replace (f v <? k)%nat with true by (symmetry; apply Nat.ltb_lt, F). rewrite (N v (or_introl eq_refl)).
  destruct (IH (mkPHG k (upd (part s) v (Some (f v))) (wt s) (pc s) (cs s))) as (s' & E & K' & W & P & C & Pt).
  - reflexivity.
  - exact ND.
  - intros x Hx. cbn [part]. rewrite upd_other; [apply N; right; exact Hx|]. intros ->. contradiction.
  - exists s'. split; [exact E|]. split; [exact K'|]. split; [exact W|]. split; [exact P|]. split; [exact C|]. intros x. rewrite Pt. cbn [part mem existsb].
    fold (mem x l). unfold upd. destruct (Nat.eqb_spec x v) as [Q|Q]; [rewrite Q; destruct (mem v l); reflexivity|reflexivity].
Qed.
Lemma api_setonly f ch eo l : forall m, m <> MLive -> fold_opt api_next m (map (fun v => OSetOnly v (f v)) l ++ [OInit ch eo]) = Some MLive.
Proof. induction l as [|v l IH]; intros m Hm; destruct m; try congruence; cbn; try reflexivity; apply IH; discriminate. Qed.
(** Whatever the hypergraph: this partitioner satisfies the hypothesis of C29, C31 and C54. *)
Lemma assign_worked H k f : wf_hg H -> (forall v, (f v < k)%nat) -> worked H k (assign_alg k f H).
Proof.
  intros WF F. unfold assign_alg, assign_ops, phg_run. rewrite fold_opt_app.
  destruct (setonly_run H k f F (nodes H) (phg_init k) eq_refl (wf_nodes H WF) ltac:(reflexivity)) as (s & E & K & W & P & C & Pt). rewrite E. cbn [fold_opt phg_step].
  assert (HC : complete H (part s) (pk s)).
  { intros v Hv. rewrite Pt, (proj2 (mem_In v (nodes H)) Hv), K. eauto. }
  assert (O : only_ids s).
  { constructor; [|rewrite W; reflexivity|rewrite P; reflexivity|rewrite C; reflexivity]. intros v b. rewrite Pt, K. destruct (mem v (nodes H)); [intros [= <-]; apply F|discriminate]. }
  destruct (init_ok H WF s [nodes H] (edges H) O HC) as (s' & E' & C' & K' & P'); [cbn; rewrite app_nil_r; reflexivity|reflexivity|].
  rewrite E'. apply (w_api H k (map (fun v => OSetOnly v (f v)) (nodes H) ++ [OInit [nodes H] (edges H)])).
  - apply api_setonly. discriminate.
  - apply Forall_app. split; [apply Forall_forall; intros o Ho; apply in_map_iff in Ho; destruct Ho as (v & <- & Hv); exact Hv|]. constructor; [|constructor]. cbn. rewrite app_nil_r. split; reflexivity.
  - unfold phg_run. rewrite fold_opt_app, E. cbn [fold_opt phg_step]. rewrite E'. reflexivity.
  - rewrite P'. rewrite K in HC. exact HC.
Qed.

(** ** Example: six nodes, a small, a single-pin and a large hyperedge, two isolated nodes *)
Definition exB : hypergraph := mkHG [0; 1; 2; 3; 4; 5]%nat [0; 1; 2]%nat
  (fun e => nth e [[0; 1]; [2]; [0; 1; 2; 3]]%nat []) (fun v => nth v [[0; 2]; [0; 2]; [1; 2]; [2]; []; []]%nat []) (fun v => if (v =? 4)%nat then 3 else 1) (fun _ => 1).
Lemma exB_wf : wf_hg exB. Proof. apply wf_hgb_sound. vm_compute. reflexivity. Qed.
Definition pick2 (L : nat -> Z) (s : phg) : list nat := if wt s 0 - L 0%nat <=? wt s 1 - L 1%nat then [0; 1]%nat else [1; 0]%nat.
Lemma pick2_sorted L s : blocks_sorted 2 L s (pick2 L s).
Proof.
  unfold blocks_sorted, pick2, distance_to_max. destruct (Z.leb_spec (wt s 0 - L 0%nat) (wt s 1 - L 1%nat)) as [Q|Q]; (split; [|repeat constructor; lia]); [reflexivity|apply perm_swap].
Qed.
Definition exL : nat -> Z := fun _ => 4.
Lemma exB_schedule B L : good_schedule B 2 L (pins B) (fun e => rev (pins B e)) (fun e => [firstn 2 (pins B e); skipn 2 (pins B e)]) (pick2 L).
Proof.
  split; [|apply pick2_sorted]. intros e _. split; [reflexivity|]. split; [apply Permutation_sym, Permutation_rev|].
  cbn [concat]. rewrite app_nil_r, firstn_skipn. reflexivity.
Qed.
Lemma intact_init B : wf_hg B -> intact B (hinit B). Proof. intros WF. split; [apply hinit_inv, WF|cbn; lia]. Qed.
Definition exF (v : nat) : nat := nth v [0; 0; 0; 1; 1; 1]%nat 0%nat.
Notation exCall := (partition_call exB exL (fun _ => false) 0 3 (pins exB) (fun e => rev (pins exB e)) (fun e => [firstn 2 (pins exB e); skipn 2 (pins exB e)]) (pick2 exL) (hinit exB) (assign_alg 2 exF)).
(** Both isolated nodes (weights 3 and 1) are removed and placed, the large and the single-pin hyperedge removed and restored. *)
Example ex_sanitize : match sanitize exB (fun _ => false) 0 3 (pins exB) (hinit exB) with Some (_, Zs, lg, sg) => (Zs, lg, sg) | None => ([], [], []) end = ([4; 5]%nat, [2]%nat, [1]%nat).
Proof. vm_compute. reflexivity. Qed.
Example ex_call : match exCall with Some (_, s) => map (part s) (nodes exB) | None => [] end = [Some 0; Some 0; Some 0; Some 1; Some 1; Some 0]%nat /\
  match exCall with Some (_, s) => map (wt s) [0; 1]%nat | None => [] end = [4; 4].
Proof. split; vm_compute; reflexivity. Qed.
(** The hypotheses of the theorems hold for it. *)
Example ex_C54 : exists h' s', exCall = Some (h', s') /\ same_hypergraph (view exB h') exB /\ started (view exB h') s' /\ complete exB (part s') 2.
Proof.
  destruct (C54_partition_covers_input exB 2 exL (fun _ => false) 0 3 _ _ _ _ (hinit exB) (assign_alg 2 exF) exB_wf ltac:(lia) (exB_schedule exB exL) (intact_init exB exB_wf))
    as (h1 & Zs & lg & sg & SA & _ & _ & _ & Q).
  destruct Q as (h' & s' & E & _ & SH & ST & _ & HC & _).
  - apply assign_worked; [|intros v; do 6 (destruct v as [|v]; [cbn; lia|]); destruct v; cbn; lia].
    destruct (sanitize_ok exB (fun _ => false) 0 3 (pins exB) (hinit exB) exB_wf ltac:(reflexivity) (intact_init exB exB_wf)) as (h2 & Z2 & l2 & g2 & SA2 & I & _).
    rewrite SA in SA2. injection SA2 as <- <- <- <-. apply (view_wf exB exB_wf _ _ h1 I).
  - exists h', s'. auto.
Qed.

(** ** C31 refuted: zero V-cycles *)
(** The partition to improve: nodes 0,1,2 in block 0, node 3 in block 1, computed on the complete hypergraph; realistic contraction limit
    (160 * k), so no node is removed, only hyperedges 1 and 2. *)
Definition exS0 : phg := assign_alg 2 exF exB.
Notation exImprove nv := (improve_call exB exL (fun _ => false) 320 3 (pins exB) (fun e => rev (pins exB e)) (fun e => [firstn 2 (pins exB e); skipn 2 (pins exB e)]) (pick2 exL) true nv (hinit exB) exS0 (fun _ H _ => assign_alg 2 exF H)).
Lemma exS0_started : started exB exS0 /\ pk exS0 = 2%nat.
Proof.
  assert (W : worked exB 2 exS0) by (apply assign_worked; [apply exB_wf|intros v; do 6 (destruct v as [|v]; [cbn; lia|]); destruct v; cbn; lia]).
  destruct (worked_inv exB 2 exS0 exB_wf W) as (C & HC & K & _). split; [|exact K]. split; [exact exB_wf|]. split; [exact C|]. rewrite K. exact HC.
Qed.
Lemma view_init B : wf_hg B -> nodes (view B (hinit B)) = nodes B /\ edges (view B (hinit B)) = edges B.
Proof. intros WF. destruct (intact_same B (hinit B) WF (intact_init B WF)) as (A & C & _). auto. Qed.
Lemma started_view B s : started B s -> started (view B (hinit B)) s.
Proof.
  intros (WF & C & HC). destruct (view_init B WF) as [VN VE]. split; [apply (view_wf B WF _ _ _ (hinit_inv B WF))|]. split.
  - constructor; [apply C| |intros e b He Hb; rewrite VE in He; exact (c_pc B s C e b He Hb)|intros e b He Hb; rewrite VE in He; exact (c_cs B s C e b He Hb)].
    intros b Hb. rewrite (c_wt _ _ C b Hb). unfold block_weight. rewrite VN. reflexivity.
  - intros v Hv. rewrite VN in Hv. apply HC, Hv.
Qed.
(** mt_kahypar_improve_partition with num_vcycles = 0: the connectivity of the removed and "restored" hyperedges is wrong. *)
Theorem C31_refuted_zero_vcycles : exists B k L h s0 fixed limit thr ord ord2 chunks pick alg h' s',
  wf_hg B /\ intact B h /\ good_schedule B k L ord ord2 chunks pick /\ started B s0 /\ pk s0 = k /\
  improve_call B L fixed limit thr ord ord2 chunks pick true 0 h s0 alg = Some (inl (h', s')) /\
  exists e, In e (edges B) /\ pins B e <> [] /\ connectivity B (part s') e = 1 /\ conn s' e = 0.
Proof.
  exists exB, 2%nat, exL, (hinit exB), exS0, (fun _ => false), 320%nat, 3%nat, (pins exB), (fun e => rev (pins exB e)), (fun e => [firstn 2 (pins exB e); skipn 2 (pins exB e)]), (pick2 exL), (fun _ H _ => assign_alg 2 exF H).
  assert (V : match exImprove 0 with Some (inl (_, s')) => (connectivity exB (part s') 1, conn s' 1) | _ => (7, 7) end = (1, 0)) by (vm_compute; reflexivity).
  destruct (exImprove 0) as [[[h' s']|]|] eqn:E; [|discriminate|discriminate].
  exists h', s'. split; [exact exB_wf|]. split; [apply intact_init, exB_wf|]. split; [apply exB_schedule|]. split; [apply exS0_started|]. split; [apply exS0_started|]. split; [reflexivity|].
  exists 1%nat. split; [right; left; reflexivity|]. split; [discriminate|]. injection V as V1 V2. auto.
Qed.
(** With one V-cycle the same call is fine (C31_improve_consistent applies). *)
Example ex_C31 : exists h' s', exImprove 1 = Some (inl (h', s')) /\ started (view exB h') s' /\ complete exB (part s') 2.
Proof.
  destruct (C31_improve_consistent exB 2 exL (fun _ => false) 320 3 _ _ _ _ (hinit exB) exS0 (fun _ H _ => assign_alg 2 exF H) 1 exB_wf ltac:(lia) (exB_schedule exB exL) (intact_init exB exB_wf)) as (h' & s' & E & _ & _ & ST & _ & HC).
  - apply started_view, exS0_started.
  - apply exS0_started.
  - lia.
  - intros h1 Zs lg sg i s SA _. apply assign_worked; [|intros v; do 6 (destruct v as [|v]; [cbn; lia|]); destruct v; cbn; lia].
    destruct (sanitize_ok exB (fun _ => false) 320 3 (pins exB) (hinit exB) exB_wf ltac:(reflexivity) (intact_init exB exB_wf)) as (h2 & Z2 & l2 & g2 & SA2 & I & _).
    rewrite SA in SA2. injection SA2 as <- <- <- <-. apply (view_wf exB exB_wf _ _ h1 I).
  - exists h', s'. auto.
Qed.

(** ** C31 refuted: presets whose mode is not direct (LARGE_K: presets.cpp:578) *)
(** The call reports an error (exception) after preprocessing; the hypergraph handed in stays reduced: hyperedges of the input are no
    longer enumerated and no longer counted. *)
Theorem C31_refuted_other_modes : exists B k L h s0 fixed limit thr ord ord2 chunks pick alg nv h1,
  wf_hg B /\ intact B h /\ good_schedule B k L ord ord2 chunks pick /\ started B s0 /\ pk s0 = k /\ (1 <= nv)%nat /\
  improve_call B L fixed limit thr ord ord2 chunks pick false nv h s0 alg = Some (inr h1) /\ edges B = [0; 1; 2]%nat /\ edges (view B h1) = [0]%nat.
Proof.
  exists exB, 2%nat, exL, (hinit exB), exS0, (fun _ => false), 320%nat, 3%nat, (pins exB), (fun e => rev (pins exB e)), (fun e => [firstn 2 (pins exB e); skipn 2 (pins exB e)]), (pick2 exL), (fun _ H _ => assign_alg 2 exF H), 1%nat.
  assert (V : match sanitize exB (fun _ => false) 320 3 (pins exB) (hinit exB) with Some (h1, _, _, _) => edges (view exB h1) | _ => [] end = [0%nat]) by (vm_compute; reflexivity).
  destruct (sanitize exB (fun _ => false) 320 3 (pins exB) (hinit exB)) as [[[[h1 Zs] lg] sg]|] eqn:E; [|discriminate].
  exists h1. split; [exact exB_wf|]. split; [apply intact_init, exB_wf|]. split; [apply exB_schedule|]. split; [apply exS0_started|]. split; [apply exS0_started|]. split; [lia|].
  split; [unfold improve_call; rewrite E; reflexivity|]. split; [reflexivity|exact V].
Qed.

(** Zero V-cycles and isolated nodes: 400 isolated nodes of weight 1, contraction limit 160 * k = 320: 80 nodes are removed, "restored" and
    counted twice: the reported block weights sum up to 480. *)
Definition isoB : hypergraph := mkHG (seq 0 400) [] (fun _ => []) (fun _ => []) (fun _ => 1) (fun _ => 1).
Lemma isoB_wf : wf_hg isoB.
Proof. constructor; cbn [isoB nodes edges pins inc]; [apply seq_NoDup|constructor|intros e []|intros e v []|intros v _; constructor|intros v e _; cbn; tauto]. Qed.
Definition isoS0 : phg := assign_alg 2 (fun v => v mod 2)%nat isoB.
Lemma isoS0_started : started isoB isoS0 /\ pk isoS0 = 2%nat.
Proof.
  assert (W : worked isoB 2 isoS0) by (apply assign_worked; [apply isoB_wf|intros v; apply Nat.mod_upper_bound; lia]).
  destruct (worked_inv isoB 2 isoS0 isoB_wf W) as (C & HC & K & _). split; [|exact K]. split; [exact isoB_wf|]. split; [exact C|]. rewrite K. exact HC.
Qed.
Theorem C31_refuted_zero_vcycles_weights : exists B k L h s0 fixed limit thr ord ord2 chunks pick alg h' s',
  wf_hg B /\ intact B h /\ good_schedule B k L ord ord2 chunks pick /\ started B s0 /\ pk s0 = k /\
  improve_call B L fixed limit thr ord ord2 chunks pick true 0 h s0 alg = Some (inl (h', s')) /\ total_weight B = 400 /\ sumZ (wt s') (seq 0 k) = 480.
Proof.
  exists isoB, 2%nat, (fun _ => 206), (hinit isoB), isoS0, (fun _ => false), 320%nat, 3%nat, (pins isoB), (fun e => rev (pins isoB e)), (fun e => [firstn 2 (pins isoB e); skipn 2 (pins isoB e)]), (pick2 (fun _ => 206)), (fun _ _ s => s).
  match goal with |- context [improve_call ?B ?L ?f ?l ?t ?o ?o2 ?c ?p ?d ?n ?h ?s ?a] =>
    assert (V : match improve_call B L f l t o o2 c p d n h s a with Some (inl (_, s')) => sumZ (wt s') (seq 0 2) | _ => 7 end = 480) by (vm_compute; reflexivity);
    destruct (improve_call B L f l t o o2 c p d n h s a) as [[[h' s']|]|]; [|discriminate|discriminate] end.
  exists h', s'. split; [exact isoB_wf|]. split; [apply intact_init, isoB_wf|]. split; [apply exB_schedule|]. split; [apply isoS0_started|]. split; [apply isoS0_started|]. split; [reflexivity|].
  split; [vm_compute; reflexivity|exact V].
Qed.

(** C30: a history with removals and restorations in different orders. *)
Example ex_history : history exB (upd (upd (upd (fun _ => true) 2%nat false) 0%nat false) 2%nat true) (upd (fun _ => true) 4%nat false)
  [HRem 2 [3; 1; 0; 2]; HRem 0 [1; 0]; HRemN 4; HRes 2 [0; 1; 2; 3]]%nat.
Proof.
  apply (h_res exB _ _ [HRem 2 [3; 1; 0; 2]; HRem 0 [1; 0]; HRemN 4]%nat 2%nat [0; 1; 2; 3]%nat); [|cbn; auto|reflexivity|reflexivity].
  apply (h_remn exB _ _ [HRem 2 [3; 1; 0; 2]; HRem 0 [1; 0]]%nat 4%nat); [|cbn; auto 10|reflexivity].
  apply (h_rem exB _ _ [HRem 2 [3; 1; 0; 2]]%nat 0%nat [1; 0]%nat); [|cbn; auto|reflexivity|apply perm_swap].
  apply (h_rem exB _ _ []%nat 2%nat [3; 1; 0; 2]%nat); [apply h_nil|cbn; auto|reflexivity|].
  cbn. apply NoDup_Permutation; [repeat constructor; cbn; intuition lia|repeat constructor; cbn; intuition lia|]. intros x. cbn. tauto.
Qed.
Example ex_history_run : match hrun exB (hinit exB) [HRem 2 [3; 1; 0; 2]; HRem 0 [1; 0]; HRemN 4; HRes 2 [0; 1; 2; 3]]%nat with
  | Some s => (nodes (view exB s), edges (view exB s), map (inc (view exB s)) [0; 1; 2; 3]%nat) | None => ([], [], []) end
  = ([0; 1; 2; 3; 5]%nat, [1; 2]%nat, [[2]; [2]; [1; 2]; [2]]%nat).
Proof. vm_compute. reflexivity. Qed.
