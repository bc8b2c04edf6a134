(** Cluster.v - the parallel clustering of the multilevel coarsener: matchVertices and joinCluster
    (mt-kahypar/partition/coarsening/multilevel_coarsener.h:357-463, 465-489) called by any number of threads
    (performClustering, :226-290), starting from the reset of a pass (coarseningPassImpl, :144-156).

    Interleaving semantics: one step = one access to _matching_state, _matching_partner, cluster_ids or _cluster_weight
    (sequentially consistent).  The contraction partner proposed by the rater is arbitrary except for what
    multilevel_vertex_pair_rater.h:189-210 checks: it differs from u and belongs to the same community.
    The thread-local counters contracted_nodes are represented by their sum.  The answer of the fixed vertex support
    (joinCluster :478-480, Fixed.v) is an arbitrary boolean of the schedule.  The rater's marks (:457-458) influence ratings
    only and are left out. *)
From Verif Require Import Base.

Inductive mstate := Unm | Prog | Mat.
Definition mstate_eqb (a b : mstate) : bool := match a, b with Unm, Unm => true | Prog, Prog => true | Mat, Mat => true | _, _ => false end.
(** Where joinCluster returns to: the end (:404, :452), :411 (u and v owned) or :440 (cyclic dependency resolved). *)
Inductive kont := KEnd | KGrab (v : nat) | KRes (v : nat).
Inductive cpc :=
| CIdle
| CWeight (u v : nat)             (* :389 load _cluster_weight[v] *)
| CCasU (u v : nat)               (* :392 compare_exchange on _matching_state[u] *)
| CPartner (u v : nat)            (* :393 *)
| CLoadV (u v : nat)              (* :398 *)
| CRead (u v : nat)               (* :402, :451 rep = cluster_ids[v] *)
| CCasV (u v : nat)               (* :407 compare_exchange on _matching_state[v] *)
| CJoin (u rep : nat) (k : kont)  (* :474 load _cluster_weight[rep] *)
| CSetId (u rep : nat) (k : kont) (* :483 *)
| CAdd (u rep : nat) (k : kont)   (* :484-485 *)
| CSetV (u v : nat) (r : bool)    (* :412 / :440 _matching_state[v] = matched *)
| CWalk (u v cur sm : nat)        (* :425 *)
| CCheck (u v cur sm : nat)       (* :436 *)
| CLoop (u v : nat)               (* :442 *)
| CAfter (u v : nat)              (* :448 *)
| CFin1 (u : nat)                 (* :459 *)
| CFin2 (u : nat).                (* :460 *)

Record cluster_st := mkCl {
  ms : nat -> mstate;       (* _matching_state *)
  mp : nat -> nat;          (* _matching_partner *)
  cid : nat -> nat;         (* cluster_ids *)
  cw : nat -> Z;            (* _cluster_weight *)
  cn : Z;                   (* sum of contracted_nodes *)
  cth : nat -> cpc
}.
(** CBegin i u v: thread i calls matchVertices(u, v).  CAdv i ok: next step of thread i; [ok] is the answer of
    fixed_vertices.contract(rep, u) if it is asked. *)
Inductive clabel := CBegin (i u v : nat) | CAdv (i : nat) (ok : bool).

Section Model.
Variables (nodes : list nat) (w : nat -> Z) (com : nat -> nat) (maxw : Z) (n : nat).

(** :148-155 *)
Definition cl_init : cluster_st := mkCl (fun _ => Unm) (fun v => v) (fun v => v) w 0 (fun _ => CIdle).
Definition goto (st : cluster_st) (i : nat) (c : cpc) : cluster_st := mkCl (ms st) (mp st) (cid st) (cw st) (cn st) (upd (cth st) i c).
Definition set_ms (st : cluster_st) (v : nat) (s : mstate) : cluster_st := mkCl (upd (ms st) v s) (mp st) (cid st) (cw st) (cn st) (cth st).
Definition set_mp (st : cluster_st) (v x : nat) : cluster_st := mkCl (ms st) (upd (mp st) v x) (cid st) (cw st) (cn st) (cth st).
Definition set_cid (st : cluster_st) (v x : nat) : cluster_st := mkCl (ms st) (mp st) (upd (cid st) v x) (cw st) (cn st) (cth st).
Definition add_cw (st : cluster_st) (v : nat) (x : Z) : cluster_st := mkCl (ms st) (mp st) (cid st) (upd (cw st) v (cw st v + x)) (cn st + 1) (cth st).
Definition return_to (u : nat) (k : kont) : cpc := match k with KEnd => CFin1 u | KGrab v => CSetV u v false | KRes v => CSetV u v true end.

Definition cl_adv (st : cluster_st) (i : nat) (ok : bool) : option cluster_st :=
  match cth st i with
  | CIdle => None
  | CWeight u v => Some (goto st i (if w u + cw st v <=? maxw then CCasU u v else CIdle))
  | CCasU u v => if mstate_eqb (ms st u) Unm then Some (goto (set_ms st u Prog) i (CPartner u v)) else Some (goto st i CIdle)
  | CPartner u v => Some (goto (set_mp st u v) i (CLoadV u v))
  | CLoadV u v => Some (goto st i (match ms st v with Mat => CRead u v | Unm => CCasV u v | Prog => CWalk u v u u end))
  | CRead u v => Some (goto st i (CJoin u (cid st v) KEnd))
  | CCasV u v => if mstate_eqb (ms st v) Unm then Some (goto (set_ms st v Prog) i (CJoin u v (KGrab v))) else Some (goto st i (CWalk u v u u))
  | CJoin u rep k => Some (goto st i (if (w u + cw st rep <=? maxw) && ok then CSetId u rep k else return_to u k))
  | CSetId u rep k => Some (goto (set_cid st u rep) i (CAdd u rep k))
  | CAdd u rep k => Some (goto (add_cw st rep (w u)) i (return_to u k))
  | CSetV u v r => Some (goto (set_ms st v Mat) i (if r then CLoop u v else CFin1 u))
  | CWalk u v cur sm =>
      let nx := mp st cur in
      Some (goto st i (if negb (Nat.eqb nx u) && negb (Nat.eqb nx cur) then CWalk u v nx (Nat.min sm nx) else CCheck u v cur sm))
  | CCheck u v cur sm => Some (goto st i (if Nat.eqb (mp st cur) u && Nat.eqb u sm then CJoin u v (KRes v) else CLoop u v))
  | CLoop u v => Some (goto st i (if mstate_eqb (ms st v) Prog then CWalk u v u u else CAfter u v))
  | CAfter u v => Some (goto st i (if mstate_eqb (ms st u) Prog then CRead u v else CFin1 u))
  | CFin1 u => Some (goto (set_mp st u u) i (CFin2 u))
  | CFin2 u => Some (goto (set_ms st u Mat) i CIdle)
  end.
Definition cl_step (st : cluster_st) (l : clabel) : option cluster_st :=
  match l with
  | CBegin i u v =>
      match cth st i with
      | CIdle => if (i <? n)%nat && mem u nodes && mem v nodes && negb (Nat.eqb u v) && Nat.eqb (com u) (com v) then Some (goto st i (CWeight u v)) else None
      | _ => None
      end
  | CAdv i ok => if (i <? n)%nat then cl_adv st i ok else None
  end.
Definition cl_run (st : cluster_st) (l : list clabel) : option cluster_st := fold_opt cl_step st l.
Definition cl_done (st : cluster_st) : Prop := forall i, (i < n)%nat -> cth st i = CIdle.

(** ** Safety under every schedule *)
(** The vertex a thread works on and the other vertex it may use. *)
Definition pc_vs (c : cpc) : list nat :=
  match c with
  | CIdle => [] | CFin1 u | CFin2 u => [u]
  | CWeight u v | CCasU u v | CPartner u v | CLoadV u v | CRead u v | CCasV u v | CSetV u v _ | CWalk u v _ _ | CCheck u v _ _ | CLoop u v | CAfter u v => [u; v]
  | CJoin u r k | CSetId u r k | CAdd u r k => match k with KEnd => [u; r] | KGrab v | KRes v => [u; r; v] end
  end.
Definition one_com (l : list nat) : Prop := (forall x, In x l -> In x nodes) /\ (forall x y, In x l -> In y l -> com x = com y).
Record safe (st : cluster_st) : Prop := {
  s_cid : forall x, In x nodes -> In (cid st x) nodes /\ com (cid st x) = com x;
  s_out : forall x, ~ In x nodes -> cid st x = x;
  s_pc : forall i, one_com (pc_vs (cth st i))
}.
Lemma one_com_sub l l' : one_com l -> incl l' l -> one_com l'.
Proof. intros [A B] I. split; [intros x Hx; apply A, I, Hx|intros x y Hx Hy; apply B; apply I; assumption]. Qed.
Lemma safe_goto st i c : safe st -> one_com (pc_vs c) -> safe (goto st i c).
Proof. intros [A B C] O. constructor; cbn; auto. intros j. unfold upd. destruct (Nat.eqb j i); auto. Qed.
Lemma safe_ms st v s : safe st -> safe (set_ms st v s). Proof. intros [A B C]. constructor; auto. Qed.
Lemma safe_mp st v s : safe st -> safe (set_mp st v s). Proof. intros [A B C]. constructor; auto. Qed.
Lemma safe_cw st v s : safe st -> safe (add_cw st v s). Proof. intros [A B C]. constructor; auto. Qed.
Lemma safe_cid st v x : safe st -> one_com [v; x] -> safe (set_cid st v x).
Proof.
  intros [A B C] [O1 O2]. constructor; cbn; auto.
  - intros y Hy. unfold upd. destruct (Nat.eqb_spec y v) as [->|]; [|apply A, Hy]. split; [apply O1; cbn; auto|apply O2; cbn; auto].
  - intros y Hy. unfold upd. destruct (Nat.eqb_spec y v) as [->|]; [|apply B, Hy]. exfalso. apply Hy, O1. cbn. auto.
Qed.
Lemma safe_step st l st' : safe st -> cl_step st l = Some st' -> safe st'.
Proof.
  intros S E. destruct l as [i u v|i ok]; cbn [cl_step] in E.
  - destruct (cth st i); try discriminate. destruct (_ && _) eqn:G; [|discriminate]. injection E as <-. apply safe_goto; [exact S|].
    repeat (apply andb_true_iff in G; destruct G as [G ?]). apply mem_In in H1, H2. apply Nat.eqb_eq in H. split; [intros x [<-|[<-|[]]]; assumption|].
    intros x y [<-|[<-|[]]] [<-|[<-|[]]]; congruence.
  - destruct (i <? n)%nat; [|discriminate]. unfold cl_adv in E. pose proof (s_pc st S i) as O.
    assert (R : forall u r k c, one_com (pc_vs (CJoin u r k)) -> c = return_to u k \/ c = CSetId u r k \/ c = CAdd u r k -> one_com (pc_vs c)).
    { intros u r k c Oc [->|[->| -> ]]; [|exact Oc|exact Oc]. eapply one_com_sub; [exact Oc|]. destruct k; cbn; intros x Hx; cbn in *; tauto. }
    destruct (cth st i) as [|u v|u v|u v|u v|u v|u v|u r k|u r k|u r k|u v r|u v cur sm|u v cur sm|u v|u v|u|u] eqn:Et; try discriminate.
    + injection E as <-. apply safe_goto; [exact S|]. destruct (_ <=? _); [exact O|split; cbn; tauto].
    + destruct (mstate_eqb _ _); injection E as <-; apply safe_goto; try (apply safe_ms); try exact S; [exact O|split; cbn; tauto].
    + injection E as <-. apply safe_goto; [apply safe_mp, S|exact O].
    + injection E as <-. apply safe_goto; [exact S|]. destruct (ms st v); exact O.
    + injection E as <-. apply safe_goto; [exact S|]. destruct O as [O1 O2]. destruct (s_cid st S v) as [V1 V2]; [apply O1; cbn; auto|]. split.
      * intros x [<-|[<-|[]]]; [apply O1; cbn; auto|exact V1].
      * assert (com u = com v) by (apply O2; cbn; auto). intros x y [<-|[<-|[]]] [<-|[<-|[]]]; congruence.
    + destruct (mstate_eqb _ _); injection E as <-; apply safe_goto; try (apply safe_ms); try exact S; [|exact O]. eapply one_com_sub; [exact O|]. cbn. intros x Hx; cbn in *; tauto.
    + injection E as <-. apply safe_goto; [exact S|]. apply (R u r k); [exact O|]. destruct (_ && _); auto.
    + injection E as <-. apply safe_goto; [|exact O]. apply safe_cid; [exact S|]. eapply one_com_sub; [exact O|]. destruct k; cbn; intros x Hx; cbn in *; tauto.
    + injection E as <-. apply safe_goto; [apply safe_cw, S|]. apply (R u r k); [exact O|auto].
    + injection E as <-. apply safe_goto; [apply safe_ms, S|]. destruct r; [exact O|]. eapply one_com_sub; [exact O|]. cbn. intros x Hx; cbn in *; tauto.
    + injection E as <-. apply safe_goto; [exact S|]. destruct (_ && _); exact O.
    + injection E as <-. apply safe_goto; [exact S|]. destruct (_ && _); [|exact O]. eapply one_com_sub; [exact O|]. cbn. intros x Hx; cbn in *; tauto.
    + injection E as <-. apply safe_goto; [exact S|]. destruct (mstate_eqb _ _); exact O.
    + injection E as <-. apply safe_goto; [exact S|]. destruct (mstate_eqb _ _); [exact O|]. eapply one_com_sub; [exact O|]. cbn. intros x Hx; cbn in *; tauto.
    + injection E as <-. apply safe_goto; [apply safe_mp, S|exact O].
    + injection E as <-. apply safe_goto; [apply safe_ms, S|]. split; cbn; tauto.
Qed.
Lemma cl_run_inv (I : cluster_st -> Prop) : (forall st l st', I st -> cl_step st l = Some st' -> I st') -> forall l st st', I st -> cl_run st l = Some st' -> I st'.
Proof.
  intros HS. unfold cl_run. induction l as [|a l IH]; intros st st' Hi E; cbn [fold_opt] in E; [injection E as <-; exact Hi|].
  destruct (cl_step st a) as [st1|] eqn:E1; [|discriminate]. eapply IH; [eapply HS; eassumption|exact E].
Qed.
Lemma safe_init : safe cl_init.
Proof. constructor; cbn; auto. intros i. split; cbn; tauto. Qed.
End Model.

(** C55: at every moment of every schedule all cluster ids are nodes of the same community: coarsening never contracts nodes
    of different communities, in a V-cycle never nodes of different blocks. *)
Theorem C55_clusters_respect_communities nodes w com maxw n l st : cl_run nodes w com maxw n (cl_init w) l = Some st ->
  forall x, (In x nodes -> In (cid st x) nodes /\ com (cid st x) = com x) /\ (~ In x nodes -> cid st x = x).
Proof.
  intros E. destruct (cl_run_inv nodes w com maxw n (safe nodes com) (safe_step nodes w com maxw n) l _ st (safe_init nodes w com n) E) as [A B _]. intros x. split; [apply A|apply B].
Qed.
