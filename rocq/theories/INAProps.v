(** C79: the incident net array of the dynamic hypergraph under contraction
    and uncontraction (n-level partitioning).
    /repo/mt-kahypar/datastructures/incident_net_array.{h,cpp};
    used by /repo/mt-kahypar/datastructures/dynamic_hypergraph.cpp.

    The specification is in INASpec.v: a forest of histories ("tv was appended
    to t", "the nets R were removed from t"), with [nets N t] the multiset of
    incident nets such a history must have. *)
From Coq Require Import List Arith Lia ZArith Bool Permutation.
From Verif Require Import Base INA INASpec INALoop INARep INAOps INAOps2 INAOps3 INAThms.
Import ListNotations.
Local Open Scope nat_scope.

(** After any number of contractions, uncontractions (in any order of the
    siblings, any interleaving between different trees) and resets, iterating
    over the incident nets of a node and asking for its degree gives exactly
    what its history says. *)
Theorem C79_incident_nets fuel N n s p F t : n <= fuel ->
  ina_run fuel N n s (p, F) -> In (t, false) F ->
  Permutation (incidentEdges fuel s (root t)) (nets N t) /\
  i_deg s (root t) = Z.of_nat (length (nets N t)).
Proof.
  intros Hn H Hi. pose proof (run_ok _ _ _ _ _ Hn H) as I. cbn [fst snd] in I.
  pose proof (fv_rep _ _ _ _ _ I t false Hi) as R.
  apply in_split in Hi. destruct Hi as (F1 & F2 & ->).
  assert (P : Permutation (F1 ++ (t, false) :: F2) ((t, false) :: F1 ++ F2))
    by (symmetry; apply Permutation_middle).
  apply (finv_perm _ _ _ _ _ _ P) in I. destruct (members_bound _ _ _ _ _ _ _ I) as [ND Lm].
  pose proof R as R0. destruct R as [R1 R2 R3 R4 R5 R6 R7 R8]. split; [|exact R7].
  rewrite members_root in ND, Lm. unfold incidentEdges.
  rewrite (it_walk_ok s (root t) (filter (ne s) (rest t)) fuel (root t)).
  - rewrite ents_filter. etransitivity; [|apply (rep_ents _ _ _ _ R0)].
    rewrite (members_root t). reflexivity.
  - exact R2.
  - apply NoDup_cons_filter. exact ND.
  - exact R5.
  - intros w Hw. apply filter_In in Hw. apply R6, Hw.
  - assert (Hl : forall l, length (filter (ne s) l) <= length l).
    { induction l as [|x l IH]; cbn [filter length]; [lia|]. destruct (ne s x); cbn [length]; lia. }
    specialize (Hl (rest t)). cbn [length] in Lm. lia.
Qed.

(** What an uncontraction reports to its caller (which repairs the pin lists
    with it): case_two for every net the node keeps, case_one for every net
    that comes back - each exactly as often as it occurs. *)
Theorem C79_uncontract_reports fuel N n s p F t R b : n <= fuel ->
  ina_run fuel N n s (p, F) -> In (Rem t R, b) F ->
  let evs := snd (restoreIncidentNets fuel s (root t)) in
  Permutation (twos evs) (nets N (Rem t R)) /\
  Permutation (ones evs) (filter R (nets N t)).
Proof.
  intros Hn H Hi. pose proof (run_ok _ _ _ _ _ Hn H) as I. cbn [fst snd] in I.
  pose proof (fv_rep _ _ _ _ _ I _ _ Hi) as Rt.
  apply in_split in Hi. destruct Hi as (F1 & F2 & ->).
  assert (P : Permutation (F1 ++ (Rem t R, b) :: F2) ((Rem t R, b) :: F1 ++ F2))
    by (symmetry; apply Permutation_middle).
  apply (finv_perm _ _ _ _ _ _ P) in I. destruct (members_bound _ _ _ _ _ _ _ I) as [ND Lm].
  cbn [members] in ND, Lm.
  destruct (op_restore N fuel s t R b Rt ND) as (_ & _ & A & B); [lia|]. auto.
Qed.

(** In particular: once everything is uncontracted, every node has its original
    incident nets again. *)
Theorem C79_restored fuel N n s p F : n <= fuel ->
  ina_run fuel N n s (p, F) ->
  (forall t b, In (t, b) F -> exists w, t = Leaf w /\ b = false) ->
  forall u, u < n ->
    Permutation (incidentEdges fuel s u) (N u) /\ i_deg s u = Z.of_nat (length (N u)).
Proof.
  intros Hn H Hl u Hu. pose proof (run_ok _ _ _ _ _ Hn H) as I. cbn [fst snd] in I.
  assert (Hi : In u (fmem F)).
  { eapply Permutation_in; [symmetry; apply (fv_perm _ _ _ _ _ I)|]. apply in_seq. lia. }
  unfold fmem in Hi. apply in_flat_map in Hi. destruct Hi as ([t b] & Hi & Hw).
  destruct (Hl t b Hi) as (w & -> & ->). cbn in Hw. destruct Hw as [->|[]].
  exact (C79_incident_nets fuel N n s p F (Leaf u) Hn H Hi).
Qed.

(** The histories never lose or duplicate a node: every node of the hypergraph
    is in exactly one of them. *)
Theorem C79_members fuel N n s p F : n <= fuel ->
  ina_run fuel N n s (p, F) -> Permutation (flat_map (fun tb => members (fst tb)) F) (seq 0 n).
Proof. intros Hn H. exact (fv_perm _ _ _ _ _ (run_ok _ _ _ _ _ Hn H)). Qed.

(** ** Example: four nodes, contractions 1->0, 2->0, then 3->0 (with shared
    nets); uncontraction of 1 and 3 before 2, i.e. not in reverse order. *)
Definition N4 (u : nat) : list nat :=
  match u with 0 => [0;1] | 1 => [1;2] | 2 => [0;2;3] | 3 => [3;4] | _ => [] end.
Definition sh (l : list nat) (e : nat) : bool := existsb (Nat.eqb e) l.

Local Notation T0 := (Leaf 0).
Local Notation T1 := (Rem (Leaf 1) (sh [1])).
Local Notation T2 := (Rem (Leaf 2) (sh [0;2])).
Local Notation T3 := (Rem (Leaf 3) (sh [3])).

Definition ops4 : list op :=
  [ORem 1 (sh [1]); OApp 0 1; ORem 2 (sh [0;2]); OApp 0 2; ORem 3 (sh [3]); OApp 0 3;
   OSplice 0 2; ORestore 2; OSplice 0 3].
Definition exec_all (fuel : nat) (s : ina) (os : list op) : ina :=
  fold_left (fun s o => fst (exec fuel s o)) os s.

Theorem C79_example :
  let s := exec_all 4 (ina_init N4) ops4 in
  ina_run 4 N4 4 s (false, [(App T0 T1, false); (T3, true); (Leaf 2, false)]) /\
  Permutation (incidentEdges 4 s 0) [0;1;2] /\ Permutation (incidentEdges 4 s 2) [0;2;3] /\
  snd (restoreIncidentNets 4 s 3) = [Two 4; One 3].
Proof.
  cbv zeta. split; [|split; [|split]].
  - unfold ops4, exec_all. cbn [fold_left].
    eapply run_step; [|eapply (L_splice _ (App (App T0 T1) T3) 3 (App T0 T1) T3 _ [(Leaf 2, false)]); [apply perm_swap|reflexivity]].
    eapply run_step; [|eapply (L_restore _ (Leaf 2) (sh [0;2]) true _ [(App (App T0 T1) T3, false)]);
                       apply perm_swap].
    eapply run_step; [|eapply (L_splice _ (App (App (App T0 T1) T2) T3) 2 (App (App T0 T1) T3) T2 _ []); [reflexivity|reflexivity]].
    eapply run_step; [|eapply (L_app (App (App T0 T1) T2) T3 _ []); apply perm_swap].
    eapply run_step; [|eapply (L_rem (Leaf 3) (sh [3]) _ [(App (App T0 T1) T2, false)]); apply perm_swap].
    eapply run_step; [|eapply (L_app (App T0 T1) T2 _ [(Leaf 3, false)]); apply perm_swap].
    eapply run_step; [|eapply (L_rem (Leaf 2) (sh [0;2]) _ [(App T0 T1, false); (Leaf 3, false)]); apply perm_swap].
    eapply run_step; [|eapply (L_app T0 T1 _ [(Leaf 2, false); (Leaf 3, false)]); apply perm_swap].
    eapply run_step; [|eapply (L_rem (Leaf 1) (sh [1]) _ [(Leaf 0, false); (Leaf 2, false); (Leaf 3, false)]); apply perm_swap].
    apply (run_init 4 N4 4).
  - replace (incidentEdges 4 (exec_all 4 (ina_init N4) ops4) 0) with [0;1;2] by (vm_compute; reflexivity). reflexivity.
  - let v := eval vm_compute in (incidentEdges 4 (exec_all 4 (ina_init N4) ops4) 2) in
    replace (incidentEdges 4 (exec_all 4 (ina_init N4) ops4) 2) with v by (vm_compute; reflexivity).
    apply NoDup_Permutation_bis.
    + repeat (apply NoDup_cons; [cbn; intuition discriminate|]). apply NoDup_nil.
    + cbn. lia.
    + intros x. cbn. intuition.
  - vm_compute. reflexivity.
Qed.

(** ** Where it stops working *)

(** All contractions before all uncontractions (or a reset in between) is
    needed: restored entries keep the larger version number, so contracting,
    uncontracting, contracting and uncontracting again loses a net. *)
Theorem C79_refuted_recontract :
  let s1 := ina_contract 4 (ina_init N4) 0 1 (sh [1]) in
  let s2 := fst (ina_uncontract 4 s1 0 1) in
  let s3 := ina_contract 4 s2 0 1 (sh [2]) in
  let s4 := fst (ina_uncontract 4 s3 0 1) in
  Permutation (incidentEdges 4 s2 1) (N4 1) /\
  incidentEdges 4 s4 1 = [1] /\ N4 1 = [1;2].
Proof.
  cbv zeta. split; [|split; [vm_compute; reflexivity|reflexivity]].
  match goal with |- Permutation ?x _ => let v := eval vm_compute in x in
    replace x with v by (vm_compute; reflexivity) end.
  apply perm_swap.
Qed.

(** dynamic_hypergraph.h:850-905 removeEdge / removeLargeEdge and restoreEdge /
    restoreLargeEdge, on the incident nets of one pin. *)
Definition removeEdge_pin (fuel : nat) (s : ina) (pin : nat) (flags : nat -> bool) : ina :=
  removeIncidentNets fuel s pin flags.
Definition restoreEdge_pin (fuel : nat) (s : ina) (pin : nat) : ina :=
  fst (restoreIncidentNets fuel s pin).

(** n-level V-cycles: a hyperedge removed before partitioning
    (partitioner.cpp:335-370) is still removed when DynamicHypergraph::reset
    (dynamic_hypergraph.h:939-944) runs at the start of a V-cycle
    (multilevel.cpp:247-257).  The reset does not reinsert it (contrary to the
    comment there), and the version numbers are gone: the final restore does
    not give it back, although the hyperedge itself is enabled again.  Without
    the reset it does. *)
Theorem C79_refuted_vcycle :
  let s1 := removeEdge_pin 4 (ina_init N4) 2 (sh [0]) in
  incidentEdges 4 (ina_reset s1) 2 = [3;2] /\
  incidentEdges 4 (restoreEdge_pin 4 (ina_reset s1) 2) 2 = [3;2] /\
  incidentEdges 4 (restoreEdge_pin 4 s1 2) 2 = [3;2;0] /\
  N4 2 = [0;2;3].
Proof. cbv zeta. repeat split; vm_compute; reflexivity. Qed.

(** removeEdge (dynamic_hypergraph.h:850-859) never clears the flag it sets in
    the thread-local bitset: after removing and restoring net 0, removing net 2
    also takes net 0 out of the incident nets of the pins of net 2. *)
Theorem C79_refuted_stale_flag :
  let flags1 := sh [0] in
  let s1 := removeEdge_pin 4 (ina_init N4) 2 flags1 in
  let s2 := restoreEdge_pin 4 s1 2 in
  let flags2 := fun e => flags1 e || sh [2] e in
  let s3 := removeEdge_pin 4 s2 2 flags2 in
  In 0 (incidentEdges 4 s2 2) /\ incidentEdges 4 s3 2 = [3].
Proof. cbv zeta. split; [|vm_compute; reflexivity]. 
  match goal with |- In _ ?x => let v := eval vm_compute in x in
    replace x with v by (vm_compute; reflexivity) end. cbn. auto. Qed.
