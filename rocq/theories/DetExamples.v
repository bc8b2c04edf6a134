(** DetExamples.v - concrete executions of a pass of the deterministic coarsener: hypotheses of C62/C63 are satisfiable; findings
    with fixed vertices and with nodes of weight zero. *)
From Verif Require Import Base Spec WfCheck ParLoop DetCoarse DetPhases DetPhases2 DetPhases3 DetCoarseThms DetInv DetThms.

(** ** Executing loops *)
Lemma par_perm {L S} (step : L -> S -> option (L * S)) ls s s' : par step ls s s' -> forall ls', Permutation ls ls' -> par step ls' s s'.
Proof.
  induction 1 as [ls s HF|a l b s l' s' s'' E HP IH]; intros ls' P.
  - apply par_done. apply (Permutation_Forall P HF).
  - destruct (in_split l ls') as (a' & b' & E'); [apply (Permutation_in l P); apply in_or_app; right; left; reflexivity|].
    rewrite E' in *. apply (par_step step a' l b' s l' s' s'' E). apply IH.
    apply Permutation_app_inv in P. apply Permutation_trans with (l' :: a ++ b); [apply Permutation_sym, Permutation_middle|].
    apply Permutation_trans with (l' :: a' ++ b'); [constructor; exact P|apply Permutation_middle].
Qed.
Section Run.
Context {L S : Type} (step : L -> S -> option (L * S)) (fin : L -> bool).
Fixpoint run (n : nat) (l : L) (s : S) : option S :=
  match n with
  | O => None
  | Datatypes.S n => if fin l then Some s else match step l s with Some (l', s') => run n l' s' | None => None end
  end.
Fixpoint runs (n : nat) (ls : list L) (s : S) : option S :=
  match ls with [] => Some s | l :: ls => match run n l s with Some s' => runs n ls s' | None => None end end.
Hypothesis Hfin : forall l, fin l = true -> forall s, step l s = None.
Lemma run_solo : forall n l s s', run n l s = Some s' -> solo step l s s'.
Proof using Hfin.
  induction n as [|n IH]; intros l s s' E; cbn in E; [discriminate|]. destruct (fin l) eqn:F.
  - inversion E; subst. apply solo_done. apply Hfin. exact F.
  - destruct (step l s) as [[l' s1]|] eqn:St; [|discriminate]. eapply solo_step; [exact St|]. apply IH. exact E.
Qed.
Lemma runs_par n ls s s' : runs n ls s = Some s' -> par step ls s s'.
Proof using Hfin.
  intros E. apply (seqp_par step ls s s') with (pre := []); [|constructor]. revert s E. induction ls as [|l ls IH]; intros s E; cbn in E.
  - inversion E; subst. constructor.
  - destruct (run n l s) as [s1|] eqn:R; [|discriminate]. econstructor; [apply (run_solo n); exact R|apply IH; exact E].
Qed.
End Run.
Definition get {S} (o : option S) (d : S) : S := match o with Some s => s | None => d end.
Definition isS {S} (o : option S) : bool := match o with Some _ => true | None => false end.
Lemma get_ok {S} (o : option S) d : isS o = true -> o = Some (get o d).
Proof. destruct o; [reflexivity|discriminate]. Qed.
Definition fin1 (l : l1) : bool := match l with PD _ => true | _ => false end.
Definition fin2 (l : l2) : bool := match l with QD _ => true | _ => false end.
Definition fin3 (l : l3) : bool := match l with AD _ => true | _ => false end.
Definition fin4 (l : l4) : bool := match l with BD => true | _ => false end.
Definition fin5 (l : l5) : bool := match l with FD _ => true | _ => false end.
Section Exec.
Variables (H : hypergraph) (p : dparams).
(** The sub-round whose loops run sequentially, loop 3 in the order [r3]. *)
Definition e1 (rng : list nat) (s : dst) : option dst := runs (step1 H p) fin1 100 (map P0 rng) s.
Definition e2 (rng : list nat) (s : dst) : option dst := if swaps p then runs (step2 H) fin2 100 (map Q0 rng) s else Some s.
Definition e3 (r3 : list nat) (s : dst) : option dst := runs (step3 H p) fin3 100 (map A0 r3) s.
Definition e4 (hl : list nat) (s : dst) : option dst := runs (step4 H p hl) fin4 100 (map B0 (seq 0 (length hl))) s.
Definition e5 (fl : list nat) (s : dst) : option dst := runs (step5 H) fin5 100 (map F0 fl) s.
Definition s1_ rng s := get (e1 rng s) s.
Definition s2_ rng s := get (e2 rng (s1_ rng s)) s.
Definition s3_ rng r3 s := get (e3 r3 (s2_ rng s)) s.
Definition s4_ rng r3 hl s := get (e4 hl (s3_ rng r3 s)) s.
Definition s5_ rng r3 hl fl s := get (e5 fl (s4_ rng r3 hl s)) s.
Definition sr rng r3 hl fl s : dst := (sub_end (fst (s5_ rng r3 hl fl s)), snd (s5_ rng r3 hl fl s)).
Lemma sub_exec rng r3 hl fl s : Permutation r3 rng ->
  isS (e1 rng s) && isS (e2 rng (s1_ rng s)) && isS (e3 r3 (s2_ rng s)) && isS (e4 hl (s3_ rng r3 s)) && isS (e5 fl (s4_ rng r3 hl s)) = true ->
  content (hvy (fst (s3_ rng r3 s))) hl -> StronglySorted (hlt H (prop (fst (s3_ rng r3 s)))) hl ->
  content (fixl (fst (s4_ rng r3 hl s))) fl -> sub_round H p rng s (sr rng r3 hl fl s).
Proof.
  intros HP B HC HS HF. rewrite !andb_true_iff in B. destruct B as [[[[B1 B2] B3] B4] B5].
  exists (s1_ rng s), (s2_ rng s), (s3_ rng r3 s), (s4_ rng r3 hl s), (s5_ rng r3 hl fl s), hl, fl.
  split; [apply (runs_par _ fin1) with (n := 100%nat); [intros [] ? ?; try discriminate; destruct s0; reflexivity|apply get_ok; exact B1]|].
  split.
  { pose proof (get_ok _ s B2) as E2. fold (s2_ rng s) in E2. unfold e2 in E2. destruct (swaps p); [|congruence].
    apply (runs_par _ fin2) with (n := 100%nat); [intros [] ? ?; try discriminate; destruct s0; reflexivity|exact E2]. }
  split.
  { apply (par_perm _ (map A0 r3)); [|apply Permutation_map; exact HP].
    apply (runs_par _ fin3) with (n := 100%nat); [intros [] ? ?; try discriminate; destruct s0; reflexivity|apply get_ok; exact B3]. }
  split; [exact HC|]. split; [exact HS|].
  split; [apply (runs_par _ fin4) with (n := 100%nat); [intros [] ? ?; try discriminate; destruct s0; reflexivity|apply get_ok; exact B4]|].
  split; [exact HF|].
  split; [apply (runs_par _ fin5) with (n := 100%nat); [intros [] ? ?; try discriminate; destruct s0; reflexivity|apply get_ok; exact B5]|].
  reflexivity.
Qed.
Definition hltb (P : nat -> nat) (a b : nat) : bool :=
  Nat.ltb (P a) (P b) || (Nat.eqb (P a) (P b) && ((nw H a <? nw H b) || ((nw H a =? nw H b) && Nat.ltb a b))).
Fixpoint ssortedb (P : nat -> nat) (l : list nat) : bool := match l with [] => true | a :: r => forallb (hltb P a) r && ssortedb P r end.
Lemma ssortedb_ok P : forall l, ssortedb P l = true -> StronglySorted (hlt H P) l.
Proof.
  induction l as [|a r IH]; intros B; [constructor|]. cbn [ssortedb] in B. apply andb_true_iff in B. destruct B as [B1 B2].
  constructor; [apply IH; exact B2|]. apply Forall_forall. rewrite forallb_forall in B1. intros b Hb. specialize (B1 b Hb).
  unfold hltb in B1. rewrite !orb_true_iff, !andb_true_iff, !orb_true_iff, !andb_true_iff, !Nat.ltb_lt, Nat.eqb_eq, Z.ltb_lt, Z.eqb_eq in B1.
  unfold hlt. tauto.
Qed.
End Exec.

Ltac counts := intros x; do 12 (destruct x as [|x]; [vm_compute; reflexivity|]); vm_compute; reflexivity.
(** ** A pass with two sub-rounds: a too heavy cluster, a swap and a cluster that grows in the second sub-round. *)
Definition detH : hypergraph :=
  mkHG [0;1;2;3;4;5;6]%nat [0;1;2;3;4]%nat
       (fun e => match e with 0 => [0;1] | 1 => [0;2] | 2 => [0;3] | 3 => [4;5] | 4 => [5;6] | _ => [] end%nat)
       (fun v => match v with 0 => [0;1;2] | 1 => [0] | 2 => [1] | 3 => [2] | 4 => [3] | 5 => [3;4] | 6 => [4] | _ => [] end%nat)
       (fun _ => 1) (fun _ => 1).
Definition detp (mx : Z) : dparams :=
  mkDP Z Z.add Z.ltb 0 (fun e => match e with 3%nat => 2 | _ => 1 end) 10 (fun t => t) (fun _ _ => 0%nat) (fun _ => true) (fun _ => 0%nat)
       mx true false (fun _ => None) (fun _ => 0) (fun _ => 0).
Definition f0 : dfix := mkDF (fun _ => 0) 0.
Definition det_t1 := sr detH (detp 3) [1;2;3;4;5]%nat [5;3;1;2;4]%nat [1;2;3]%nat [] (det_init detH f0).
Definition det_t2 := sr detH (detp 3) [0;6]%nat [0;6]%nat [] [] det_t1.
Lemma ex_det_pass : pass detH (detp 3) 1 [[1;2;3;4;5]; [0;6]]%nat (det_init detH f0) det_t2.
Proof.
  apply (pass_go detH (detp 3) 1 [1;2;3;4;5]%nat [[0;6]]%nat _ det_t1); [vm_compute; reflexivity| |].
  - apply sub_exec; [|vm_compute; reflexivity|counts| |counts].
    + apply NoDup_Permutation; [repeat constructor; cbn; lia|repeat constructor; cbn; lia|]. intros x. cbn. tauto.
    + apply ssortedb_ok. vm_compute. reflexivity.
  - apply (pass_go detH (detp 3) 1 [0;6]%nat [] _ det_t2); [vm_compute; reflexivity| |constructor].
    apply sub_exec; [apply Permutation_refl|vm_compute; reflexivity|counts|constructor|counts].
Qed.
Example ex_det_result : map (clu (fst det_t2)) (nodes detH) = [0;0;0;3;5;5;5]%nat /\ num (fst det_t2) = 3.
Proof. vm_compute. split; reflexivity. Qed.
Example ex_det_hyp : wf_hg detH /\ (forall x, In x (nodes detH) -> 0 < nw detH x) /\ NoDup (concat [[1;2;3;4;5]; [0;6]]%nat) /\
  incl (concat [[1;2;3;4;5]; [0;6]]%nat) (nodes detH) /\ hasf (detp 3) = false.
Proof.
  split; [apply wf_hgb_sound; vm_compute; reflexivity|]. split; [intros; vm_compute; reflexivity|].
  split; [repeat constructor; cbn; lia|]. split; [|reflexivity]. intros x. cbn. tauto.
Qed.

(** ** Finding: with fixed vertices the clustering depends on the schedule, and the weight limit of the fixed vertex blocks is exceeded. *)
Definition fixH : hypergraph :=
  mkHG [0;1;2;3;4;5;6]%nat [0;1;2;3;4]%nat
       (fun e => match e with 0 => [0;1] | 1 => [0;2] | 2 => [0;3] | 3 => [0;4] | 4 => [0;5] | _ => [] end%nat)
       (fun v => match v with 0 => [0;1;2;3;4] | 1 => [0] | 2 => [1] | 3 => [2] | 4 => [3] | 5 => [4] | _ => [] end%nat)
       (fun v => match v with 1%nat => 2 | 2%nat => 2 | 3%nat => 2 | 6%nat => 100 | _ => 1 end) (fun _ => 1).
Definition fixp : dparams :=   (* two blocks, epsilon = 0, maximum block weights 7 and 200 *)
  mkDP Z Z.add Z.ltb 0 (fun _ => 1) 10 (fun t => t) (fun _ _ => 0%nat) (fun _ => true) (fun _ => 0%nat)
       100 true true (fun v => match v with 0%nat => Some 0%nat | 6%nat => Some 1%nat | _ => None end) (fun z => (z + 1) / 2)
       (fun b => match b with 0%nat => 7 | _ => 200 end).
Definition fixf : dfix := mkDF (fun b => match b with 0%nat => 1 | _ => 100 end) 101.
Definition fx_a1 := sr fixH fixp [1;2;3;4]%nat [1;2;3;4]%nat [] [] (det_init fixH fixf).
Definition fx_a2 := sr fixH fixp [5;6;0]%nat [5;6;0]%nat [] [] fx_a1.
Definition fx_b1 := sr fixH fixp [1;2;3;4]%nat [4;1;2;3]%nat [] [] (det_init fixH fixf).
Definition fx_b2 := sr fixH fixp [5;6;0]%nat [5;6;0]%nat [] [] fx_b1.
Lemma fx_pass_a : pass fixH fixp 1 [[1;2;3;4]; [5;6;0]]%nat (det_init fixH fixf) fx_a2.
Proof.
  apply (pass_go fixH fixp 1 [1;2;3;4]%nat [[5;6;0]]%nat _ fx_a1); [vm_compute; reflexivity| |].
  - apply sub_exec; [apply Permutation_refl|vm_compute; reflexivity|counts|constructor|counts].
  - apply (pass_go fixH fixp 1 [5;6;0]%nat [] _ fx_a2); [vm_compute; reflexivity| |constructor].
    apply sub_exec; [apply Permutation_refl|vm_compute; reflexivity|counts|constructor|counts].
Qed.
Lemma fx_pass_b : pass fixH fixp 1 [[1;2;3;4]; [5;6;0]]%nat (det_init fixH fixf) fx_b2.
Proof.
  apply (pass_go fixH fixp 1 [1;2;3;4]%nat [[5;6;0]]%nat _ fx_b1); [vm_compute; reflexivity| |].
  - apply sub_exec; [|vm_compute; reflexivity|counts|constructor|counts].
    apply NoDup_Permutation; [repeat constructor; cbn; lia|repeat constructor; cbn; lia|]. intros x. cbn. tauto.
  - apply (pass_go fixH fixp 1 [5;6;0]%nat [] _ fx_b2); [vm_compute; reflexivity| |constructor].
    apply sub_exec; [apply Permutation_refl|vm_compute; reflexivity|counts|constructor|counts].
Qed.
(** Blocks of the fixed vertices' clusters: weight of all nodes whose cluster is fixed to block [b]. *)
Definition fixed_to (H : hypergraph) (p : dparams) (cl : nat -> nat) (b : nat) : Z :=
  sumZ (nw H) (filter (fun x => match fblk p (cl x) with Some b' => Nat.eqb b' b | None => false end) (nodes H)).
Theorem C62_refuted_fixed_vertices : exists H p rngs f s1 s2,
  wf_hg H /\ (forall x, In x (nodes H) -> 0 < nw H x) /\ NoDup (concat rngs) /\ incl (concat rngs) (nodes H) /\ hasf p = true /\
  (forall b, fbw f b = match b with 0%nat => fixed_to H p (fun x => x) 0 | _ => fixed_to H p (fun x => x) 1 end) /\
  (forall b, fbw f b <= maxpart p b) /\
  pass H p 1 rngs (det_init H f) s1 /\ pass H p 1 rngs (det_init H f) s2 /\
  (exists x, In x (nodes H) /\ clu (fst s1) x <> clu (fst s2) x) /\ num (fst s1) <> num (fst s2).
Proof.
  exists fixH, fixp, [[1;2;3;4]; [5;6;0]]%nat, fixf, fx_a2, fx_b2.
  split; [apply wf_hgb_sound; vm_compute; reflexivity|].
  split; [intros x Hx; cbn in Hx; intuition subst; vm_compute; reflexivity|].
  split; [repeat constructor; cbn; lia|]. split; [intros x; cbn; tauto|]. split; [reflexivity|].
  split; [intros [|b]; vm_compute; reflexivity|]. split; [intros [|b]; vm_compute; discriminate|].
  split; [apply fx_pass_a|]. split; [apply fx_pass_b|]. split; [exists 5%nat; split; [cbn; tauto|]|]; vm_compute; discriminate.
Qed.
(** The clusters of the fixed vertices of block 0 weigh more than the block may. *)
Theorem C63_refuted_fixed_block_limit : exists H p rngs f s,
  wf_hg H /\ (forall x, In x (nodes H) -> 0 < nw H x) /\ NoDup (concat rngs) /\ incl (concat rngs) (nodes H) /\ hasf p = true /\
  (forall b, fbw f b = match b with 0%nat => fixed_to H p (fun x => x) 0 | _ => fixed_to H p (fun x => x) 1 end) /\
  (forall b, fbw f b <= maxpart p b) /\
  pass H p 1 rngs (det_init H f) s /\ maxpart p 0 < fixed_to H p (clu (fst s)) 0.
Proof.
  exists fixH, fixp, [[1;2;3;4]; [5;6;0]]%nat, fixf, fx_a2.
  split; [apply wf_hgb_sound; vm_compute; reflexivity|].
  split; [intros x Hx; cbn in Hx; intuition subst; vm_compute; reflexivity|].
  split; [repeat constructor; cbn; lia|]. split; [intros x; cbn; tauto|]. split; [reflexivity|].
  split; [intros [|b]; vm_compute; reflexivity|]. split; [intros [|b]; vm_compute; discriminate|].
  split; [apply fx_pass_a|]. vm_compute. reflexivity.
Qed.

(** ** Finding: with nodes of weight zero the reported number of clusters is wrong. *)
Definition zeroH : hypergraph :=
  mkHG [0;1;2]%nat [0;1]%nat
       (fun e => match e with 0 => [0;1] | 1 => [1;2] | _ => [] end%nat)
       (fun v => match v with 0 => [0] | 1 => [0;1] | 2 => [1] | _ => [] end%nat)
       (fun v => match v with 0%nat => 0 | _ => 1 end) (fun _ => 1).
Definition zerop : dparams :=
  mkDP Z Z.add Z.ltb 0 (fun e => match e with 1%nat => 2 | _ => 1 end) 10 (fun t => t) (fun _ _ => 0%nat) (fun _ => true) (fun _ => 0%nat)
       10 true false (fun _ => None) (fun _ => 0) (fun _ => 0).
Definition zero_t1 := sr zeroH zerop [0;1]%nat [0;1]%nat [] [] (det_init zeroH f0).
Theorem C63_refuted_zero_weight : exists H p rngs f s,
  wf_hg H /\ (forall x, In x (nodes H) -> 0 <= nw H x) /\ NoDup (concat rngs) /\ incl (concat rngs) (nodes H) /\ hasf p = false /\
  pass H p 1 rngs (det_init H f) s /\ num (fst s) <> Z.of_nat (length (nodup Nat.eq_dec (map (clu (fst s)) (nodes H)))).
Proof.
  exists zeroH, zerop, [[0;1]]%nat, f0, zero_t1.
  split; [apply wf_hgb_sound; vm_compute; reflexivity|].
  split; [intros x Hx; cbn in Hx; intuition subst; vm_compute; discriminate|].
  split; [repeat constructor; cbn; lia|]. split; [intros x; cbn; tauto|]. split; [reflexivity|]. split; [|vm_compute; discriminate].
  apply (pass_go zeroH zerop 1 [0;1]%nat [] _ zero_t1); [vm_compute; reflexivity| |constructor].
  apply sub_exec; [apply Permutation_refl|vm_compute; reflexivity|counts|constructor|counts].
Qed.
