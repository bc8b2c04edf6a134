(** WfCheck.v - decision procedure for wf_hg, used only to exhibit concrete instances. *)
From Verif Require Import Base Spec.

Fixpoint nodupb (l : list nat) : bool := match l with [] => true | x :: r => negb (mem x r) && nodupb r end.
Lemma nodupb_sound l : nodupb l = true -> NoDup l.
Proof.
  induction l as [|x r IH]; simpl; intros E; [constructor|]. apply andb_true_iff in E. destruct E as [E1 E2].
  constructor; [apply mem_false; destruct (mem x r); [discriminate|reflexivity]|apply IH; exact E2].
Qed.
Definition wf_hgb (H : hypergraph) : bool :=
  nodupb (nodes H) && nodupb (edges H) && forallb (fun e => nodupb (pins H e)) (edges H) &&
  forallb (fun e => forallb (fun v => mem v (nodes H)) (pins H e)) (edges H) &&
  forallb (fun v => nodupb (inc H v)) (nodes H) &&
  forallb (fun v => forallb (fun e => mem e (edges H) && mem v (pins H e)) (inc H v)) (nodes H) &&
  forallb (fun e => forallb (fun v => mem e (inc H v)) (pins H e)) (edges H).
Lemma wf_hgb_sound H : wf_hgb H = true -> wf_hg H.
Proof.
  unfold wf_hgb. rewrite !andb_true_iff. intros [[[[[[A B] C] D] E] F] G].
  rewrite forallb_forall in C, D, E, F, G. constructor.
  - apply nodupb_sound, A.
  - apply nodupb_sound, B.
  - intros e He. apply nodupb_sound, C, He.
  - intros e v He Hv. specialize (D e He). rewrite forallb_forall in D. apply mem_In, D, Hv.
  - intros v Hv. apply nodupb_sound, E, Hv.
  - intros v e Hv. split.
    + intros He. specialize (F v Hv). rewrite forallb_forall in F. specialize (F e He). apply andb_true_iff in F.
      split; apply mem_In; tauto.
    + intros [He Hp]. specialize (G e He). rewrite forallb_forall in G. apply mem_In, G, Hp.
Qed.

(** The running example: 4 nodes, hyperedges {0,1,2} (weight 2), {2,3} (weight 3), {0,3} (weight 1). *)
Definition exH : hypergraph :=
  mkHG [0;1;2;3]%nat [0;1;2]%nat
       (fun e => match e with 0 => [0;1;2] | 1 => [2;3] | 2 => [0;3] | _ => [] end%nat)
       (fun v => match v with 0 => [0;2] | 1 => [0] | 2 => [0;1] | 3 => [1;2] | _ => [] end%nat)
       (fun v => match v with 0%nat => 1 | 1%nat => 2 | 2%nat => 1 | _ => 3 end)
       (fun e => match e with 0%nat => 2 | 1%nat => 3 | _ => 1 end).
Lemma exH_wf : wf_hg exH.
Proof. apply wf_hgb_sound. vm_compute. reflexivity. Qed.
