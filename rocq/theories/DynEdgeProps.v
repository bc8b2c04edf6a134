(** C81: the pins of a hyperedge during n-level coarsening and uncoarsening. *)
From Coq Require Import List Arith ZArith Lia Bool Permutation Sorted.
From Verif Require Import Base INA INARep INAOps2 DynEdge DynEdgeSpec DynEdgeThms DynEdgeBatch DynEdgeRun.
Import ListNotations.
Local Open Scope nat_scope.

(** After any sequence of contractions the hyperedge contains every
    representative of an original pin exactly once, and nothing else. *)
Theorem C81_contract P0 ops e : NoDup P0 -> erun P0 ops e ->
  NoDup (valid e) /\ forall x, In x (valid e) <-> In x (map (reps ops) P0).
Proof.
  intros NP R. destruct (erun_inv _ _ _ NP R) as [C G]. split; [exact (NoDup_app_remove_r _ _ (ci_nd _ _ _ C))|].
  intros x. rewrite (ci_valid _ _ _ C), image_spec.
  - split; intros [H N]; (split; [|exact N]).
    + destruct H as [H|(o & Ho & <- & _)]; [left; exact H|right; apply in_map; exact Ho].
    + destruct H as [H|H]; [left; exact H|]. apply in_map_iff in H. destruct H as (o & <- & Ho).
      destruct (legal_in _ _ _ G Ho) as (l1 & l2 & E & G1). destruct (o_sh o) eqn:Es; [|right; exists o; auto].
      apply (lg_sh _ _ _ G1) in Es. rewrite E, nsh_app. tauto.
  - intros l1 o l2 E. pose proof (G _ _ _ E) as G1. split; [exact (lg_uv _ _ _ G1)|]. split; [exact (lg_u _ _ _ G1)|].
    split; [exact (lg_v _ _ _ G1)|]. destruct (lg_v2 _ _ _ G1) as [H|(o' & Ho & <- & _)]; [left; exact H|right; apply in_map; exact Ho].
Qed.

Lemma hash_perm h l1 l2 : Permutation l1 l2 -> hash_sum h l1 = hash_sum h l2.
Proof. intros P. unfold hash_sum. induction P; cbn; lia. Qed.

(** The footprint is the sum over the pins that are there: two hyperedges with
    the same pins have the same footprint, and so are compared. *)
Theorem C81_footprint h seed P0 ops e : NoDup P0 -> erun P0 ops e ->
  (fold_left (hash_step h) ops (seed + hash_sum h P0) = seed + hash_sum h (valid e))%Z.
Proof.
  assert (HP : forall l1 l2, Permutation l1 l2 -> hash_sum h l1 = hash_sum h l2).
  { intros l1 l2. apply hash_perm. }
  assert (HA : forall l1 l2, hash_sum h (l1 ++ l2) = (hash_sum h l1 + hash_sum h l2)%Z).
  { unfold hash_sum. induction l1 as [|x l1 IH]; intros l2; cbn; [lia|]. rewrite IH. lia. }
  intros NP R. induction R as [|ops e u v R IH Hv Huv Hu|ops e l R IH Hp].
  - unfold valid. cbn [e_arr e_size fold_left]. rewrite firstn_all. reflexivity.
  - destruct (erun_inv _ _ _ NP R) as [C _].
    destruct (contract_spec e u v) as (_ & mid & P & D);
      [exact (NoDup_app_remove_r _ _ (ci_nd _ _ _ C))|exact (ci_len _ _ _ C)|exact Hv|exact Huv|].
    cbv zeta in D. rewrite fold_left_app, IH, <- (HP _ _ P), HA. cbn [fold_left]. unfold hash_step. cbn [o_sh o_u o_v].
    destruct D as [(_ & -> & -> & _)|(_ & -> & -> & _)]; rewrite ?HA; unfold hash_sum; cbn [fold_right]; lia.
  - rewrite IH. f_equal. destruct (erun_inv _ _ _ NP R) as [C _]. rewrite valid_mk; [symmetry; apply HP; exact Hp|].
    rewrite (Permutation_length Hp). unfold valid. rewrite firstn_length_le; [reflexivity|exact (ci_len _ _ _ C)].
Qed.

Corollary C81_parallel_nets_found h seed P0 Q0 ops1 ops2 e1 e2 : NoDup P0 -> NoDup Q0 ->
  erun P0 ops1 e1 -> erun Q0 ops2 e2 -> (forall x, In x (valid e1) <-> In x (valid e2)) ->
  fold_left (hash_step h) ops1 (seed + hash_sum h P0)%Z = fold_left (hash_step h) ops2 (seed + hash_sum h Q0)%Z.
Proof.
  intros N1 N2 R1 R2 E. rewrite (C81_footprint h seed _ _ _ N1 R1), (C81_footprint h seed _ _ _ N2 R2). f_equal.
  assert (P : Permutation (valid e1) (valid e2)).
  { apply NoDup_Permutation; [apply (C81_contract _ _ _ N1 R1)|apply (C81_contract _ _ _ N2 R2)|exact E]. }
  exact (hash_perm h _ _ P).
Qed.

Section Uncontract.
Variables (P0 : list nat) (ops : list eop) (e0 : edge) (rank par : nat -> nat) (b0 : nat).
Hypothesis NP : NoDup P0.
Hypothesis R0 : erun P0 ops e0.
Hypothesis O : order_ok P0 ops rank par b0.

(** Before every batch [b], the pins are the representatives with respect to
    the contractions that are not yet undone. *)
Theorem C81_pins b part s : urun ops e0 rank par b0 b part s ->
  NoDup (valid (p_edge s)) /\
  forall x, In x (valid (p_edge s)) <-> In x (map (reps (filter (fun o => b <=? rank (o_v o)) ops)) P0).
Proof.
  intros R. destruct (erun_inv _ _ _ NP R0) as [C G]. pose proof (urun_inv _ _ _ _ _ G O _ _ _ _ C R) as U.
  split; [exact (NoDup_app_remove_r _ _ (ui_nd _ _ _ _ _ _ _ U))|]. intros x.
  rewrite (ui_valid _ _ _ _ _ _ _ U). exact (Vb_image P0 ops rank par b0 G O b x).
Qed.

(** The pin counts are those of the current pins and the current blocks. *)
Theorem C81_pin_counts b part s : urun ops e0 rank par b0 b part s ->
  forall blk, p_pc s blk = counts part (valid (p_edge s)) blk.
Proof.
  intros R. destruct (erun_inv _ _ _ NP R0) as [C G]. exact (ui_pc _ _ _ _ _ _ _ (urun_inv _ _ _ _ _ G O _ _ _ _ C R)).
Qed.

(** When all batches are done, the hyperedge has its original pins. *)
Theorem C81_restored b part s : urun ops e0 rank par b0 b part s -> (forall o, In o ops -> rank (o_v o) < b) ->
  Permutation (valid (p_edge s)) P0.
Proof.
  intros R Hall. destruct (C81_pins b part s R) as [ND H]. apply NoDup_Permutation; [exact ND|exact NP|].
  intros x. rewrite H. assert (E : filter (fun o => b <=? rank (o_v o)) ops = []).
  { clear - Hall. induction ops as [|o l IH]; [reflexivity|]. cbn. pose proof (Hall o (or_introl eq_refl)).
    destruct (Nat.leb_spec b (rank (o_v o))); [lia|]. apply IH. intros o' Ho'. apply Hall. right. exact Ho'. }
  rewrite E. rewrite map_ext with (g := fun y => y) by reflexivity. rewrite map_id. reflexivity.
Qed.

(** A batch of uncontractions does not change which blocks the hyperedge
    touches, so it changes no objective function. *)
Theorem C81_connectivity_unchanged b part s os s' : urun ops e0 rank par b0 b part s ->
  Permutation os (filter (fun o => rank (o_v o) =? b) ops) ->
  batch_run rank b par (setparts rank b par part) s os s' ->
  forall blk, 0 < p_pc s' blk <-> 0 < p_pc s blk.
Proof.
  intros R Pos BR. destruct (erun_inv _ _ _ NP R0) as [C G]. pose proof (urun_inv _ _ _ _ _ G O _ _ _ _ C R) as U.
  exact (proj1 (proj2 (batch_step _ _ _ _ _ G O b part s os s' U Pos BR))).
Qed.

(** Every uncontraction of the batch is reported to the gain cache exactly once
    for this hyperedge, with the right case. *)
Theorem C81_callbacks b part s os s' : urun ops e0 rank par b0 b part s ->
  Permutation os (filter (fun o => rank (o_v o) =? b) ops) ->
  batch_run rank b par (setparts rank b par part) s os s' ->
  exists Lg, p_log s' = p_log s ++ Lg /\
    Permutation (map (fun x => (ev_sh x, ev_u x, ev_v x)) Lg) (map (fun o => (o_sh o, o_u o, o_v o)) os).
Proof.
  intros R Pos BR. destruct (erun_inv _ _ _ NP R0) as [C G]. pose proof (urun_inv _ _ _ _ _ G O _ _ _ _ C R) as U.
  exact (proj2 (proj2 (batch_step _ _ _ _ _ G O b part s os s' U Pos BR))).
Qed.
End Uncontract.

Lemma bss_cons rank b par part x y z : bstep rank b par part x y -> bsteps rank b par part y z -> bsteps rank b par part x z.
Proof. intros S R. induction R as [y|y w z R IH S2]; [eapply bss_step; [apply bss_refl|exact S]|eapply bss_step; [exact (IH S)|exact S2]]. Qed.

(** ** Example *)
(** pins 2 3 4; contract 2 onto 1 (not a pin), 3 onto 1, 4 onto 1. Batches: 4, 3 then 2. *)
Definition exE1 := contractHyperedge (mkEdge [2;3;4] 3) 1 2.
Definition exE2 := contractHyperedge (fst exE1) 1 3.
Definition exE3 := contractHyperedge (fst exE2) 1 4.
Definition exOps := [mkOp 1 2 (snd exE1); mkOp 1 3 (snd exE2); mkOp 1 4 (snd exE3)].
Definition exRank (x : nat) : nat := match x with 4 => 1 | 3 => 1 | 2 => 2 | _ => 0 end.
Definition exPar (x : nat) : nat := match x with 0 => 0 | _ => 1 end.

Lemma exRun : erun [2;3;4] exOps (fst exE3).
Proof.
  change exOps with (([] ++ [mkOp 1 2 (snd exE1)]) ++ [mkOp 1 3 (snd exE2)] ++ [mkOp 1 4 (snd exE3)]). rewrite app_assoc.
  assert (V1 : valid (fst exE1) = [4;3;1]) by (vm_compute; reflexivity).
  assert (V2 : valid (fst exE2) = [4;1]) by (vm_compute; reflexivity).
  apply er_contract with (e := fst exE2).
  - apply er_contract with (e := fst exE1).
    + apply er_contract with (e := mkEdge [2;3;4] 3).
      * apply (er_init [2;3;4]).
      * left. reflexivity.
      * lia.
      * intros [].
    + rewrite V1. right. left. reflexivity.
    + lia.
    + cbn. intros [X|[]]. lia.
  - rewrite V2. left. reflexivity.
  - lia.
  - cbn. intros [X|[X|[]]]; lia.
Qed.
Lemma exSplit l1 o1 l2 o2 l3 : exOps = l1 ++ o1 :: l2 ++ o2 :: l3 -> exRank (o_v o2) <= exRank (o_v o1).
Proof.
  destruct l1 as [|a [|c [|d l1]]]; cbn; intros E; injection E as <-; intros;
    destruct l2 as [|x [|y l2]]; cbn in *; repeat match goal with H : _ :: _ = _ |- _ => injection H as <-; intros end;
    subst; cbn; try lia; try discriminate;
    try (destruct l2; discriminate); try (destruct l1; discriminate).
  all: match goal with H : [] = ?l ++ _ |- _ => destruct l; discriminate end.
Qed.
Lemma exOrder : order_ok [2;3;4] exOps exRank exPar 1.
Proof.
  constructor.
  - intros o Ho. cbn in Ho. destruct Ho as [<-|[<-|[<-|[]]]]; reflexivity.
  - intros o Ho. cbn in Ho. destruct Ho as [<-|[<-|[<-|[]]]]; cbn; lia.
  - intros o1 o2 H1 H2 E. cbn in H1, H2. destruct H1 as [<-|[<-|[<-|[]]]], H2 as [<-|[<-|[<-|[]]]]; cbn in E; lia.
  - intros l1 o1 l2 o2 l3 E _. exact (exSplit l1 o1 l2 o2 l3 E).
  - intros x [Hx|Hx] N; cbn in Hx, N.
    + exfalso. tauto.
    + left. destruct Hx as [<-|[<-|[<-|[]]]]; reflexivity.
Qed.

(** both cases occur; after the first batch the pins are 1, 3, 4 and after the
    second 2, 3, 4; with block 5 for node 1 all of them are counted there *)
Theorem C81_example :
  map o_sh exOps = [false; true; true] /\ valid (fst exE3) = [1] /\
  exists s1 s2, urun exOps (fst exE3) exRank exPar 1 3 (fun _ => 5) s2 /\
    urun exOps (fst exE3) exRank exPar 1 2 (fun _ => 5) s1 /\
    valid (p_edge s1) = [1; 4; 3] /\ valid (p_edge s2) = [2; 4; 3] /\ p_pc s1 5 = 3 /\ p_pc s2 5 = 3.
Proof.
  split; [vm_compute; reflexivity|]. split; [vm_compute; reflexivity|].
  assert (Hst : urun exOps (fst exE3) exRank exPar 1 1 (fun _ => 5)
     (mkPst (mkEdge (valid (fst exE3) ++ [4;3]) (e_size (fst exE3))) (counts (fun _ => 5) (valid (fst exE3))) [])).
  { apply ur_start.
    - vm_compute. apply Permutation_refl.
    - repeat constructor. }
  eapply ur_batch with (os := [mkOp 1 3 true; mkOp 1 4 true]) in Hst;
    [|vm_compute; apply Permutation_refl|].
  2:{ exists RDone. split; [|discriminate].
      eapply bss_cons; [apply (bs_first _ _ _ _ _ [mkOp 1 3 true] (mkOp 1 4 true) []); reflexivity|].
      eapply bss_cons; [apply bs_restore with (pin := 4); vm_compute; reflexivity|].
      eapply bss_cons; [apply (bs_later _ _ _ _ _ [] (mkOp 1 3 true) []); [reflexivity|discriminate]|].
      eapply bss_cons; [apply bs_restore with (pin := 3); vm_compute; reflexivity|].
      eapply bss_cons; [apply bs_stop; intros pin X; vm_compute in X; discriminate|].
      apply bss_refl. }
  apply ur_refine with (part' := fun _ => 5) in Hst. pose proof Hst as Hst2.
  eapply ur_batch with (os := [mkOp 1 2 false]) in Hst2; [|vm_compute; apply Permutation_refl|].
  2:{ exists RIdle. split; [|discriminate].
      eapply bss_cons; [apply (bs_replace _ _ _ _ _ [] (mkOp 1 2 false) []); reflexivity|].
      apply bss_refl. }
  apply ur_refine with (part' := fun _ => 5) in Hst2.
  eexists. eexists. split; [exact Hst2|]. split; [exact Hst|]. repeat split; vm_compute; reflexivity.
Qed.

(** ** The order is needed *)
(** If the first contraction onto 1 (which brought 1 into the hyperedge) is
    undone before the others, node 1 is lost although 3 and 4 are still
    contracted onto it. *)
Theorem C81_order_needed :
  let rank := fun x => match x with 2 => 1 | 3 => 2 | 4 => 2 | _ => 0 end in
  exists s, urun exOps (fst exE3) rank exPar 1 2 (fun _ => 5) s /\
    ~ In 1 (valid (p_edge s)) /\ In 1 (map (reps (filter (fun o => 2 <=? rank (o_v o)) exOps)) [2;3;4]).
Proof.
  cbv zeta. match goal with |- exists s, urun _ _ ?r _ _ _ _ _ /\ _ => set (rank := r) end.
  assert (Hst : urun exOps (fst exE3) rank exPar 1 1 (fun _ => 5)
     (mkPst (mkEdge (valid (fst exE3) ++ [4;3]) (e_size (fst exE3))) (counts (fun _ => 5) (valid (fst exE3))) [])).
  { apply ur_start.
    - vm_compute. apply Permutation_refl.
    - repeat constructor. }
  eapply ur_batch with (os := [mkOp 1 2 false]) in Hst; [|vm_compute; apply Permutation_refl|].
  2:{ exists RIdle. split; [|discriminate].
      eapply bss_cons; [apply (bs_replace _ _ _ _ _ [] (mkOp 1 2 false) []); reflexivity|].
      apply bss_refl. }
  apply ur_refine with (part' := fun _ => 5) in Hst.
  eexists. split; [exact Hst|]. split.
  - vm_compute. intros [X|[]]. discriminate.
  - vm_compute. tauto.
Qed.

(** ** The footprint after uncontraction *)
(** Uncontraction and reset() (dynamic_hypergraph.h:940-944) do not restore the
    footprint: in a second V-cycle {1,2} and {1,3} become identical after
    contracting 3 onto 2, but have different footprints when 2 was contracted
    onto 1 in the first V-cycle, so they are not recognised as identical. *)
Theorem C81_refuted_second_vcycle : exists h ops1 e1 ops2 e2,
  let cycle1 := [mkOp 1 2 true] in
  erun [1;2] cycle1 (fst (contractHyperedge (mkEdge [1;2] 2) 1 2)) /\ erun [1;3] [] (mkEdge [1;3] 2) /\
  erun [1;2] ops1 e1 /\ erun [1;3] ops2 e2 /\ valid e1 = [1;2] /\ valid e2 = [1;2] /\
  fold_left (hash_step h) (cycle1 ++ ops1) (hash_sum h [1;2]) <> fold_left (hash_step h) ops2 (hash_sum h [1;3]).
Proof.
  exists (fun x => Z.of_nat x), [], (mkEdge [1;2] 2), [mkOp 2 3 false], (mkEdge [1;2] 2). cbv zeta.
  split; [|split; [|split; [|split; [|split; [|split]]]]]; try reflexivity.
  - apply (er_contract [1;2] [] (mkEdge [1;2] 2) 1 2); [apply (er_init [1;2])|right; left; reflexivity|lia|intros []].
  - apply (er_init [1;3]).
  - apply (er_init [1;2]).
  - apply (er_contract [1;3] [] (mkEdge [1;3] 2) 2 3); [apply (er_init [1;3])|right; left; reflexivity|lia|intros []].
  - vm_compute. discriminate.
Qed.
