(** C86: a concrete run with two versions. *)
From Coq Require Import List Arith Lia Bool Permutation Sorted.
From Verif Require Import Base Batch BatchProps RegTree RegTreeSpec RegTreeInv RegTreeInv2 RegTreeForest RegTreeProps
  DynEdge DynEdgeSpec DynEdgeThms DynEdgeProps Roundtrip RoundtripInv RoundtripThms RoundtripWt.
Import ListNotations.
Local Open Scope nat_scope.

(** executable schedules *)
Inductive hact := HCall (t u v : nat) | HGo (t k : nat) | HWork (t : nat) | HVer (l : list nat).

Definition mem (y : nat) (l : list nat) : bool := existsb (Nat.eqb y) l.
Lemma mem_no y l : mem y l = false -> ~ In y l.
Proof. intros H Hi. assert (mem y l = true); [|congruence]. apply existsb_exists. exists y. rewrite Nat.eqb_refl. auto. Qed.
Lemma mem_yes y l : mem y l = true -> In y l.
Proof. intros H. apply existsb_exists in H. destruct H as (z & Hz & E). apply Nat.eqb_eq in E. now subst. Qed.

Definition done (p : pc) (e : edge) : bool := match p with CEnd _ y _ => negb (mem y (valid e)) | _ => true end.
Definition noexec (p : pc) : bool := match p with Idle => true | _ => false end.

Fixpoint gow (K mx t k : nat) (h : hst) : hst :=
  match k with
  | O => h
  | S j => let s := h_s h in
           if done (snd s t) (h_e h) then
             match exec mx t (fst s) (snd s t) with
             | Some (g', p') => let s' := (g', upd (snd s) t p') in
                 if okc K s' then gow K mx t j (mkH s' (h_e h) (h_ops h) (h_rm h)) else h
             | None => h
             end
           else h
  end.
Definition idleK (K : nat) (s : St) : bool := forallb (fun t => noexec (snd s t)) (seq 0 K).
Definition hdo (K n mx : nat) (a : hact) (h : hst) : hst :=
  let s := h_s h in
  match a with
  | HCall t u v => if noexec (snd s t) && (u <? n) && (v <? n) && negb (u =? v) && (t <? K) && okc K (fst s, upd (snd s) t (RAcq u v))
                   then mkH (fst s, upd (snd s) t (RAcq u v)) (h_e h) (h_ops h) (h_rm h) else h
  | HGo t k => if t <? K then gow K mx t k h else h
  | HWork t => match snd s t, h_rm h with
               | CEnd x y _, None => if mem y (valid (h_e h))
                   then mkH s (fst (contractHyperedge (h_e h) x y)) (h_ops h ++ [mkOp x y (snd (contractHyperedge (h_e h) x y))]) None else h
               | _, _ => h
               end
  | HVer l => if idleK K s then
      match l with
      | [] => mkH (set_cv (fst s) (S (cv (fst s))), snd s) (mkEdge (valid (h_e h) ++ invalid (h_e h)) (e_size (h_e h))) (h_ops h) (h_rm h)
      | _ => h end else h
  end.

Definition quietK (K : nat) (h : hst) : Prop := forall t, K <= t -> snd (h_s h) t = Idle.

Lemma exec_cv mx t g p g' p' : exec mx t g p = Some (g', p') -> cv g' = cv g.
Proof. intros X. apply (exec_ver _ _ _ _ _ _ X). Qed.

Lemma upd_quiet K (pcs : nat -> pc) t p : t < K -> (forall t', K <= t' -> pcs t' = Idle) -> forall t', K <= t' -> upd pcs t p t' = Idle.
Proof. intros L H t' L'. rewrite upd_other by lia. auto. Qed.

Lemma gow_run K n mx w0 P0 t k h : t < K -> hrun n mx w0 P0 h -> quietK K h ->
  hrun n mx w0 P0 (gow K mx t k h) /\ quietK K (gow K mx t k h).
Proof.
  intros L. revert h. induction k as [|k IH]; intros [[g pcs] e ops r] R H; cbn [gow]; auto. cbn [h_s h_e h_ops h_rm fst snd].
  destruct (done (pcs t) e) eqn:D; auto. destruct (exec mx t g (pcs t)) as [(g', p')|] eqn:X; auto. cbv zeta.
  destruct (okc K (g', upd pcs t p')) eqn:O; auto.
  assert (H' : quietK K (mkH (g', upd pcs t p') e ops r)) by (unfold quietK; cbn; apply upd_quiet; auto).
  apply IH; auto. eapply hrun_S; [exact R| |apply (okc_sound K); auto]. apply hs_thread.
  - now constructor.
  - cbn. eapply exec_cv; eauto.
  - intros _ t' x y a E N. cbn in E, N. destruct (Nat.eq_dec t' t) as [->|Nt]; [|rewrite upd_other in N; auto; contradiction].
    rewrite E in D. cbn in D. apply negb_true_iff in D. now apply mem_no.
Qed.

Lemma hdo_run K n mx w0 P0 a h : hrun n mx w0 P0 h -> quietK K h -> hrun n mx w0 P0 (hdo K n mx a h) /\ quietK K (hdo K n mx a h).
Proof.
  destruct h as [[g pcs] e ops r]. intros R H. destruct a as [t u v|t k|t|l]; cbn [hdo h_s h_e h_ops h_rm fst snd].
  - destruct (_ && _ && _ && _ && _ && _) eqn:E; auto. eqb.
    assert (H' : quietK K (mkH (g, upd pcs t (RAcq u v)) e ops r)) by (unfold quietK; cbn; apply upd_quiet; auto).
    split; auto. eapply hrun_S; [exact R| |apply (okc_sound K); auto]. apply hs_thread; auto.
    + constructor; auto. destruct (pcs t); auto; discriminate.
    + intros _ t' x y a Ep N. cbn in Ep, N. destruct (Nat.eq_dec t' t) as [->|Nt]; [|rewrite upd_other in N; auto; contradiction].
      rewrite Ep in *. discriminate.
  - destruct (t <? K) eqn:L; auto. eqb. now apply gow_run.
  - destruct (pcs t) eqn:Ep; auto. destruct r; auto. destruct (mem y (valid e)) eqn:M; auto. split; [|exact H].
    eapply hrun_S; [exact R|eapply hs_work; eauto; now apply mem_yes|]. 
    assert (O : one_committing (h_s (mkH (g, pcs) e ops None))); [|exact O].
    apply srun_one with (n := n) (mx := mx) (w0 := w0).
    clear - R. remember (mkH (g, pcs) e ops None) as h. clear Heqh. induction R as [|h h' R IH S O]; [constructor|].
    destruct S; cbn [h_s] in *; auto; econstructor; eauto; constructor; auto.
  - destruct (idleK K (g, pcs)) eqn:D; auto. destruct l; auto. split; [|exact H].
    assert (Q : forall t, pcs t = Idle).
    { intros t. destruct (Nat.lt_ge_cases t K) as [L|L]; [|apply H; auto]. unfold idleK in D. rewrite forallb_forall in D.
      specialize (D t ltac:(apply in_seq; lia)). cbn in D. destruct (pcs t); auto; discriminate. }
    eapply hrun_S; [exact R|apply hs_keep; auto|]. intros t1 t2 A. cbn in A. rewrite Q in A. discriminate.
Qed.

Lemma hsched_run K n mx w0 P0 l h : hrun n mx w0 P0 h -> quietK K h -> 
  hrun n mx w0 P0 (fold_left (fun h a => hdo K n mx a h) l h) /\ quietK K (fold_left (fun h a => hdo K n mx a h) l h).
Proof.
  revert h. induction l as [|a l IH]; intros h R H; cbn; auto. destruct (hdo_run K n mx w0 P0 a h R H). auto.
Qed.

(** Nodes 0..4, hyperedge {2,3,4}.  First pass: two threads contract 2 and 3
    onto 1, overlapping; second pass: 1 is contracted onto 0. *)
Definition hex : hst := fold_left (fun h a => hdo 3 5 4 a h)
  [HCall 1 1 3; HGo 1 20; HCall 2 1 2; HGo 2 40; HWork 2; HGo 1 20; HWork 1; HGo 2 40; HGo 1 40; HGo 2 40; HVer [];
   HCall 1 0 1; HGo 1 40; HWork 1; HGo 1 40]
  (mkH (g0 (fun _ => 1), fun _ => Idle) (mkEdge [2;3;4] 3) [] None).
Definition asg_ex (k : nat) : list asn := match k with 0 => [mkAsn 1 3 0 0; mkAsn 1 2 0 1] | _ => [mkAsn 0 1 0 0] end.
Definition bidx_ex (v : nat) : nat := match v with 1 => 1 | _ => 0 end.


(** One thread builds the batches of a version. *)
Fixpoint bgo (t : ctree) (k mx f : nat) (s : assigner) (th : thr) : assigner * thr :=
  match f with
  | 0 => (s, th)
  | S f' => match tstep t k mx 0 99 s th with Some (s', th') => bgo t k mx f' s' th' | None => (s, th) end
  end.
Lemma bgo_run t k mx dist f : forall s th, brun t k mx dist s [th] ->
  brun t k mx dist (fst (bgo t k mx f s th)) [snd (bgo t k mx f s th)].
Proof.
  induction f as [|f IH]; intros s th H; cbn; [exact H|].
  destruct (tstep t k mx 0 99 s th) as [[s' th']|] eqn:E; [|exact H]. apply IH.
  exact (br_step t k mx dist s [] th [] 0 99 s' th' H E).
Qed.

Definition gex : G := fst (h_s hex).
Definition opsex : list eop := [mkOp 1 2 false; mkOp 1 3 true; mkOp 0 1 false].

Lemma hex_run : hrun 5 4 (fun _ => 1) [2;3;4] hex /\ quietK 3 hex.
Proof. apply hsched_run; [apply hrun_0|]. intros t _. reflexivity. Qed.

Lemma hex_idle t : snd (h_s hex) t = Idle.
Proof.
  destruct (Nat.lt_ge_cases t 3) as [L|L]; [|apply hex_run; exact L].
  destruct t as [|[|[|t]]]; [vm_compute; reflexivity..|lia].
Qed.

Lemma hex_hier : hierarchy (tree_of 5 gex) 10 1 asg_ex (fun _ => 1).
Proof.
  intros k Lk. 
  assert (X : forall k rs, version_roots (tree_of 5 gex) k = rs ->
    snd (bgo (tree_of 5 gex) k 10 30 sh_init (thr_init (tree_of 5 gex) k rs)) = mkThr [] [] 1 (asg_ex k) Ready ->
    numberOfNonEmptyBatches 5 (fst (bgo (tree_of 5 gex) k 10 30 sh_init (thr_init (tree_of 5 gex) k rs))) = 1 ->
    exists dist s ts, brun (tree_of 5 gex) k 10 dist s ts /\ finished ts /\ asg_ex k = assignments ts /\ 1 = numberOfNonEmptyBatches (ct_n (tree_of 5 gex)) s).
  { clear k Lk. intros k rs E1 E2 E3. exists [rs], (fst (bgo (tree_of 5 gex) k 10 30 sh_init (thr_init (tree_of 5 gex) k rs))),
      [mkThr [] [] 1 (asg_ex k) Ready]. split; [|split; [|split]].
    - rewrite <- E2. apply bgo_run. apply (br_init (tree_of 5 gex) k 10 [rs]). cbn [concat]. rewrite app_nil_r, E1. reflexivity.
    - intros th [<-|[]]. split; reflexivity.
    - unfold assignments. cbn. now rewrite app_nil_r.
    - symmetry. exact E3. }
  destruct k as [|[|k]]; [| |lia].
  - apply (X 0 [1]); vm_compute; reflexivity.
  - apply (X 1 [0]); vm_compute; reflexivity.
Qed.

Theorem C86_example : exists g pcs e ops asg B bidx,
  hrun 5 4 (fun _ => 1) [2;3;4] (mkH (g, pcs) e ops None) /\ (forall t, pcs t = Idle) /\
  cv g = 1 /\ ops = opsex /\ valid e = [4;0] /\ map (wt g) (seq 0 5) = [4;3;1;1;1] /\
  hierarchy (tree_of 5 g) 10 (cv g) asg B /\ batch_indices (cv g) asg B bidx /\
  (exists s1 s2, urun ops e (rank_of (cv g) B bidx) (par g) (first_batch (cv g) B None) 1 (fun _ => 7) s1 /\
     valid (p_edge s1) = [4;1] /\
     urun ops e (rank_of (cv g) B bidx) (par g) (first_batch (cv g) B None) 2 (fun _ => 7) s2 /\
     valid (p_edge s2) = [4;2;3] /\ p_pc s2 7 = 3) /\
  (exists w, wrun (rank_of (cv g) B bidx) (mementos (cv g) asg) (wt g) 2 w /\ map w (seq 0 5) = [1;1;1;1;1]).
Proof.
  pose proof hex_run as (R & _). pose proof hex_idle as I. pose proof hex_hier as Hh.
  assert (E0 : cv gex = 1) by (vm_compute; reflexivity).
  assert (E1 : h_ops hex = opsex) by (vm_compute; reflexivity).
  assert (E2 : h_e hex = mkEdge [4;0;3] 2) by (vm_compute; reflexivity).
  assert (E3 : h_rm hex = None) by (vm_compute; reflexivity).
  assert (HI : batch_indices 1 asg_ex (fun _ => 1) bidx_ex).
  { intros k a Lk Ha. destruct k as [|[|k]]; [| |lia]; cbn in Ha; [destruct Ha as [<-|[<-|[]]]|destruct Ha as [<-|[]]]; reflexivity. }
  assert (EP : forall x, x < 5 -> par gex x = match x with 1 => 0 | 2 => 1 | 3 => 1 | _ => x end).
  { intros x L. do 5 (destruct x as [|x]; [vm_compute; reflexivity|]). lia. }
  exists gex, (snd (h_s hex)), (mkEdge [4;0;3] 2), opsex, asg_ex, (fun _ => 1), bidx_ex.
  rewrite E0. split; [|split; [exact I|split; [reflexivity|split; [reflexivity|split; [reflexivity|split; [vm_compute; reflexivity|split; [exact Hh|split; [exact HI|split]]]]]]]].
  - unfold gex. rewrite <- surjective_pairing, <- E1, <- E2, <- E3. destruct hex; exact R.
  - set (rank := rank_of 1 (fun _ => 1) bidx_ex).
    assert (Hst : urun opsex (mkEdge [4;0;3] 2) rank (par gex) 0 0 (fun _ => 7)
     (mkPst (mkEdge ([4;0] ++ [3]) 2) (counts (fun _ => 7) [4;0]) [])).
    { apply (ur_start opsex (mkEdge [4;0;3] 2)); [apply Permutation_refl|repeat constructor]. }
    eapply ur_batch with (os := [mkOp 0 1 false]) in Hst; [|apply Permutation_refl|].
    2:{ exists RIdle. split; [|discriminate].
        eapply bss_step; [apply bss_refl|]. apply (bs_replace _ _ _ _ _ [] (mkOp 0 1 false) []). reflexivity. }
    apply ur_refine with (part' := fun _ => 7) in Hst. pose proof Hst as Hst2.
    eapply ur_batch with (os := [mkOp 1 3 true; mkOp 1 2 false]) in Hst2; [|vm_compute; apply perm_swap|].
    2:{ exists RDone. split; [|discriminate].
        eapply bss_cons; [apply (bs_first _ _ _ _ _ [] (mkOp 1 3 true) [mkOp 1 2 false]); reflexivity|].
        eapply bss_cons; [apply bs_restore with (pin := 3); vm_compute; reflexivity|].
        eapply bss_cons; [apply (bs_replace _ _ _ _ _ [] (mkOp 1 2 false) []); reflexivity|].
        eapply bss_cons; [apply bs_stop; intros pin X; vm_compute in X; discriminate|].
        apply bss_refl. }
    apply ur_refine with (part' := fun _ => 7) in Hst2.
    eexists. eexists. split; [exact Hst|]. split; [vm_compute; reflexivity|]. split; [exact Hst2|]. split; vm_compute; reflexivity.
  - eexists. split.
    + eapply wr_S with (os := [mkAsn 1 3 0 0; mkAsn 1 2 0 1]); [eapply wr_S with (os := [mkAsn 0 1 0 0]); [apply wr_0|]|];
        vm_compute; apply Permutation_refl.
    + vm_compute. reflexivity.
Qed.
