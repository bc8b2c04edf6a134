(** AfterburnerProps.v - the afterburner as a parallel loop: property C68. *)
From Verif Require Import Base Spec SpecLemmas PHG PHGProofs Conc ConcMore ConcRun Objective GainCache Metrics PropsA WfCheck DetLP DetLPThms DetLPTotal DetRebThms DetLPProps ParLoop Afterburner AfterburnerThms Afterburner2.

Section Loop.
Variables (H : hypergraph) (o : objective) (s : phg) (gt : nat -> Z * nat).
Local Notation contrib := (contrib H o s gt).
Local Notation bstep := (bstep H o s gt).
Definition pend (l : bpc) : list (nat * Z) := match l with BEdge _ => [] | BAdd ad _ => ad end.
Definition todo (l : bpc) : list nat := match l with BEdge es => es | BAdd _ es => es end.
Definition vsum (vs : nat -> bool) (v : nat) : Z := sumZ (fun e => if vs e then csum (contrib e) v else 0) (edges H).
Record BInv (A : list nat) (ls : list bpc) (a : ab) : Prop := {
  bi_sum : forall v, ag a v + sumZ (fun l => csum (pend l) v) ls = vsum (vis a) v;
  bi_vis : forall e, vis a e = true -> exists u, In u A /\ In e (inc H u);
  bi_todo : forall l e, In l ls -> In e (todo l) -> exists u, In u A /\ In e (inc H u);
  bi_cov : forall u e, In u A -> In e (inc H u) -> vis a e = true \/ exists l, In l ls /\ In e (todo l)
}.
Hypothesis WF : wf_hg H.
Lemma vsum_add A vs e v : incl A (nodes H) -> (exists u, In u A /\ In e (inc H u)) -> vs e = false -> vsum (upd vs e true) v = vsum vs v + csum (contrib e) v.
Proof.
  intros HA (u & Hu & He) V. assert (IE : In e (edges H)) by (apply (wf_inc _ WF u e (HA u Hu)); exact He).
  unfold vsum. rewrite (sumZ_change1 _ (fun x => if vs x then csum (contrib x) v else 0) (edges H) e (wf_edges _ WF)).
  - fold (mem e (edges H)). rewrite (proj2 (mem_In e (edges H)) IE), upd_same, V. lia.
  - intros x _ N. rewrite upd_other by exact N. reflexivity.
Qed.
Lemma bstep_inv A x l y a l' a' : incl A (nodes H) -> BInv A (x ++ l :: y) a -> bstep l a = Some (l', a') -> BInv A (x ++ l' :: y) a'.
Proof.
  intros HA [S1 S2 S3 S4] E.
  assert (IL : In l (x ++ l :: y)) by (apply in_or_app; right; left; reflexivity).
  assert (SW : forall m, In m (x ++ l' :: y) -> m = l' \/ In m (x ++ l :: y)).
  { intros m M. apply in_app_or in M. destruct M as [M|[M|M]]; [right; apply in_or_app; left; exact M|left; congruence|right; apply in_or_app; right; right; exact M]. }
  assert (SV : forall m, In m (x ++ l :: y) -> m = l \/ In m (x ++ l' :: y)).
  { intros m M. apply in_app_or in M. destruct M as [M|[M|M]]; [right; apply in_or_app; left; exact M|left; congruence|right; apply in_or_app; right; right; exact M]. }
  assert (IL' : In l' (x ++ l' :: y)) by (apply in_or_app; right; left; reflexivity).
  assert (SUM : forall v, sumZ (fun l => csum (pend l) v) (x ++ l' :: y) = sumZ (fun l => csum (pend l) v) (x ++ l :: y) - csum (pend l) v + csum (pend l') v).
  { intros v. rewrite !sumZ_app. cbn [sumZ]. lia. }
  destruct l as [[|e es]|[|[w z] ad] es]; cbn [bstep] in E; [discriminate| | |].
  - destruct (vis a e) eqn:V; inversion E; subst; clear E; split.
    + intros v. rewrite SUM. cbn [pend]. rewrite <- S1. unfold csum. cbn [sumZ]. lia.
    + exact S2.
    + intros m f M F. destruct (SW m M) as [->|M']; [apply (S3 _ f IL); right; exact F|apply (S3 m f M' F)].
    + intros u f Hu Hf. destruct (S4 u f Hu Hf) as [X|(m & M & F)]; [left; exact X|]. destruct (SV m M) as [->|M']; [|right; exists m; auto]. destruct F as [<-|F]; [left; exact V|right; exists (BEdge es); auto].
    + intros v. rewrite SUM. cbn [pend ag vis]. assert (IE : exists u, In u A /\ In e (inc H u)) by (apply (S3 _ e IL); left; reflexivity).
      rewrite (vsum_add A (vis a) e v HA IE V), <- S1. assert (Z0 : csum [] v = 0) by reflexivity. rewrite Z0. lia.
    + cbn [vis]. intros f. destruct (Nat.eq_dec f e) as [->|N]; [intros _; apply (S3 _ e IL); left; reflexivity|rewrite upd_other by exact N; apply S2].
    + intros m f M F. destruct (SW m M) as [->|M']; [apply (S3 _ f IL); right; exact F|apply (S3 m f M' F)].
    + cbn [vis]. intros u f Hu Hf. destruct (Nat.eq_dec f e) as [->|N]; [left; apply upd_same|]. rewrite upd_other by exact N.
      destruct (S4 u f Hu Hf) as [X|(m & M & F)]; [left; exact X|]. destruct (SV m M) as [->|M']; [|right; exists m; auto]. destruct F as [<-|F]; [congruence|right; exists (BAdd (contrib e) es); auto].
  - inversion E; subst; clear E; split.
    + intros v. rewrite SUM. cbn [pend]. rewrite <- S1. unfold csum. cbn [sumZ]. lia.
    + exact S2.
    + intros m f M F. destruct (SW m M) as [->|M']; [apply (S3 _ f IL); exact F|apply (S3 m f M' F)].
    + intros u f Hu Hf. destruct (S4 u f Hu Hf) as [X|(m & M & F)]; [left; exact X|]. destruct (SV m M) as [->|M']; [|right; exists m; auto]. right; exists (BEdge es); auto.
  - inversion E; subst; clear E; split.
    + intros v. rewrite SUM. cbn [pend vis ag]. rewrite <- S1. unfold csum at 2. cbn [sumZ fst snd]. fold (csum ad v). destruct (Nat.eqb_spec w v) as [->|N]; [rewrite upd_same; lia|rewrite upd_other by congruence; lia].
    + exact S2.
    + intros m f M F. destruct (SW m M) as [->|M']; [apply (S3 _ f IL); exact F|apply (S3 m f M' F)].
    + intros u f Hu Hf. destruct (S4 u f Hu Hf) as [X|(m & M & F)]; [left; exact X|]. destruct (SV m M) as [->|M']; [|right; exists m; auto]. right; exists (BAdd ad es); auto.
Qed.
Lemma bstart A : BInv A (map (fun v => BEdge (inc H v)) A) ab0.
Proof.
  split.
  - intros v. cbn [ab0 ag vis]. unfold vsum. rewrite (sumZ_zero _ (edges H)) by reflexivity. rewrite sumZ_zero; [reflexivity|]. intros l Hl. apply in_map_iff in Hl. destruct Hl as (u & <- & _). reflexivity.
  - discriminate.
  - intros l e Hl He. apply in_map_iff in Hl. destruct Hl as (u & <- & Hu). exists u. auto.
  - intros u e Hu He. right. exists (BEdge (inc H u)). split; [apply in_map_iff; exists u; auto|exact He].
Qed.
Lemma bend A a : incl A (nodes H) -> afterburn H o s gt A a -> (forall v, ag a v = vsum (vis a) v) /\ (forall e, vis a e = true <-> exists u, In u A /\ In e (inc H u)).
Proof.
  intros HA X.
  assert (G : forall ls b c, par bstep ls b c -> BInv A ls b -> exists ls', BInv A ls' c /\ Forall (fun l => bstep l c = None) ls').
  { induction 1 as [ls t HF|x l y t l' t' t'' E HP IH]; intros HI; [exists ls; split; assumption|]. apply IH. eapply bstep_inv; eassumption. }
  destruct (G _ _ _ X (bstart A)) as (ls & [S1 S2 S3 S4] & F). rewrite Forall_forall in F.
  assert (EM : forall l, In l ls -> l = BEdge []). { intros l Hl. specialize (F l Hl). destruct l as [[|e es]|[|[w z] ad] es]; cbn [bstep] in F; [reflexivity| |discriminate|discriminate]. destruct (vis a e); discriminate. }
  split.
  - intros v. rewrite <- S1. rewrite sumZ_zero; [lia|]. intros l Hl. rewrite (EM l Hl). reflexivity.
  - intros e. split; [apply S2|]. intros (u & Hu & He). destruct (S4 u e Hu He) as [V|(l & Hl & I)]; [exact V|]. rewrite (EM l Hl) in I. destruct I.
Qed.
Definition bcost (l : bpc) : nat :=
  let es c := list_sum (map (fun e => 2 + length (contrib e))%nat c) in
  match l with BEdge c => (es c)%nat | BAdd ad c => (1 + length ad + es c)%nat end.
Lemma bcost_dec l a l' a' : bstep l a = Some (l', a') -> (bcost l' < bcost l)%nat.
Proof.
  destruct l as [[|e es]|[|[w z] ad] es]; cbn [bstep]; [discriminate| | |].
  - destruct (vis a e); intros E; inversion E; subst; cbn [bcost map list_sum fold_right]; change (fold_right Nat.add 0%nat) with list_sum; lia.
  - intros E; inversion E; subst; cbn; lia.
  - intros E; inversion E; subst; cbn; lia.
Qed.
End Loop.

Section Props.
Variables (H : hypergraph) (o : objective) (s : phg) (gt : nat -> Z * nat) (A : list nat).
Local Notation Pb := (Pbef s gt).
Local Notation De := (De H o s gt).
(** What the afterburner is given: a list of candidates; every node has a target block, which is its own block if it is not a candidate.  The objective is
    not soed, or there are no two-pin hyperedges. *)
Record ab_input : Prop := {
  bi_state : started H s;
  bi_tg : forall v, In v (nodes H) -> (tg gt v < pk s)%nat;
  bi_nodup : NoDup A;
  bi_incl : incl A (nodes H);
  bi_stay : forall v, In v (nodes H) -> ~ In v A -> part s v = Some (tg gt v);
  bi_obj : o <> Osoed \/ forall e, In e (edges H) -> length (pins H e) <> 2%nat
}.
Hypothesis IN : ab_input.
Lemma De_out v e : ~ In v (pins H e) -> De v e = 0.
Proof. intros N. unfold AfterburnerThms.De. rewrite (edge_ext o H (move (Pb v) v (tg gt v)) (Pb v)); [lia|]. intros u Hu. unfold move. apply upd_other. intros ->. contradiction. Qed.
Theorem C68_afterburner_exact : forall a v, afterburn H o s gt A a -> In v A ->
  ag a v = obj_spec o H (move (Pb v) v (tg gt v)) - obj_spec o H (Pb v).
Proof.
  intros a v X Hv. destruct IN as [ST TG ND HA SY OB]. pose proof ST as (WF & C & HC). destruct (bend H o s gt WF A a HA X) as [E V]. rewrite E, !obj_sum, <- sumZ_minus. unfold vsum.
  apply sumZ_ext. intros e He. fold (De v e).
  assert (EX : exact_obj H o e) by (destruct OB as [OB|OB]; [left; exact OB|right; apply OB; exact He]).
  rewrite (contrib_ok H o s gt ST TG e He EX v). destruct (vis a e) eqn:VE.
  - destruct (mem v (pins H e)) eqn:M; [reflexivity|]. symmetry. apply De_out, mem_false, M.
  - symmetry. apply De_out. intros I. assert (IC : In e (inc H v)) by (apply (wf_inc _ WF v e (HA v Hv)); split; assumption). rewrite (proj2 (V e)) in VE; [discriminate|]. exists v. auto.
Qed.
(** The result does not depend on the schedule, and there is one. *)
Theorem C68_deterministic : forall a a', afterburn H o s gt A a -> afterburn H o s gt A a' -> forall v, ag a v = ag a' v.
Proof.
  intros a a' X Y v. destruct IN as [ST TG ND HA SY OB]. pose proof ST as (WF & _). destruct (bend H o s gt WF A a HA X) as [E V]. destruct (bend H o s gt WF A a' HA Y) as [E' V'].
  rewrite E, E'. unfold vsum. apply sumZ_ext. intros e _. assert (EQ : vis a e = vis a' e) by (apply eq_true_iff_eq; rewrite V, V'; reflexivity). rewrite EQ. reflexivity.
Qed.
Theorem C68_completes : exists a, afterburn H o s gt A a.
Proof. apply (par_total _ (bcost H o s gt) (bcost_dec H o s gt) (S (list_sum (map (bcost H o s gt) (map (fun v => BEdge (inc H v)) A))))). lia. Qed.
(** If all candidates are moved, the sum of the gains is the exact change of the objective. *)
Definition all_moved : partition := fun v => if mem v A then Some (tg gt v) else part s v.
Lemma obj_ext P Q : (forall v, In v (nodes H) -> P v = Q v) -> obj_spec o H P = obj_spec o H Q.
Proof. intros E. destruct IN as [ST _ _ _ _ _]. destruct ST as (WF & _). rewrite !obj_sum. apply sumZ_ext. intros e He. apply edge_ext. intros v Hv. apply E. apply (wf_pins_nodes _ WF e v He Hv). Qed.
Lemma telescope : forall l, StronglySorted (fun u v => abef gt u v = true) l -> incl l A -> (forall u x, In u A -> ~ In u l -> In x l -> abef gt u x = true) -> l <> [] ->
  forall x l', l = x :: l' -> sumZ (fun v => obj_spec o H (move (Pb v) v (tg gt v)) - obj_spec o H (Pb v)) l = obj_spec o H all_moved - obj_spec o H (Pb x).
Proof.
  pose proof IN as [ST TG ND HA SY OB].
  induction l as [|y l IH]; intros SS IL CL NE x l' E; [congruence|]. inversion E; subst y l'. clear E NE. inversion SS as [|? ? SS' F]; subst. rewrite Forall_forall in F. cbn [sumZ].
  assert (NX : ~ In x l). { intros X. pose proof (F x X) as Y. cbn in Y. rewrite abef_irr in Y. discriminate. }
  destruct l as [|y l].
  - cbn [sumZ]. enough (EQ : obj_spec o H (move (Pb x) x (tg gt x)) = obj_spec o H all_moved) by lia. apply obj_ext. intros v Hv. unfold move, all_moved. destruct (Nat.eq_dec v x) as [->|N].
    + rewrite upd_same, (proj2 (mem_In x A) (IL x (or_introl eq_refl))). reflexivity.
    + rewrite upd_other by exact N. unfold Pbef. destruct (mem_spec v A) as [I|I].
      * rewrite (CL v x I); [reflexivity|intros [X|[]]; congruence|left; reflexivity].
      * rewrite (SY v Hv I). destruct (abef gt v x); reflexivity.
  - rewrite (IH SS') with (x := y) (l' := l); [|intros u Hu; apply IL; right; exact Hu| |discriminate|reflexivity].
    + enough (EQ : obj_spec o H (move (Pb x) x (tg gt x)) = obj_spec o H (Pb y)) by lia. apply obj_ext. intros v Hv. unfold move. destruct (Nat.eq_dec v x) as [->|N].
      * rewrite upd_same. unfold Pbef. rewrite (F y (or_introl eq_refl)). reflexivity.
      * rewrite upd_other by exact N. unfold Pbef. destruct (in_dec Nat.eq_dec v A) as [I|I]; [|rewrite (SY v Hv I); destruct (abef gt v x), (abef gt v y); reflexivity].
        destruct (in_dec Nat.eq_dec v (y :: l)) as [J|J].
        -- assert (X1 : abef gt v x = false). { destruct (abef gt v x) eqn:X; [|reflexivity]. pose proof (abef_trans gt x v x (F v J) X) as Y. rewrite abef_irr in Y. discriminate. }
           assert (X2 : abef gt v y = false). { destruct (abef gt v y) eqn:X; [|reflexivity]. destruct J as [<-|J]; [rewrite abef_irr in X; discriminate|]. inversion SS' as [|? ? _ F2]; subst. rewrite Forall_forall in F2. pose proof (abef_trans gt y v y (F2 v J) X) as Y. rewrite abef_irr in Y. discriminate. }
           rewrite X1, X2. reflexivity.
        -- rewrite (CL v x I), (CL v y I); [reflexivity| | | |]; try (right; left; reflexivity); try (left; reflexivity); intros [X|X]; congruence || contradiction.
    + intros u z Hu Nu Hz. destruct (Nat.eq_dec u x) as [->|Ne]; [apply (F z Hz)|]. apply CL; [exact Hu|intros [X|X]; [congruence|contradiction]|right; exact Hz].
Qed.
Theorem C68_total_gain : forall a, afterburn H o s gt A a -> sumZ (ag a) A = obj_spec o H all_moved - obj_spec o H (part s).
Proof.
  intros a X. pose proof IN as [ST TG ND HA SY OB].
  assert (G : StronglySorted (fun u v => abef gt u v = true) (isort (abef gt) A) /\ Permutation A (isort (abef gt) A)).
  { split; [|apply isort_perm]. apply isort_sorted; [intros p q r; apply abef_trans| |exact ND]. intros p q _ _ NE. destruct (abef gt p q) eqn:E; [reflexivity|apply abef_total; assumption]. }
  destruct G as [SS PM]. set (l := isort (abef gt) A) in *. rewrite (sumZ_perm _ A l PM).
  rewrite (sumZ_ext (ag a) (fun v => obj_spec o H (move (Pb v) v (tg gt v)) - obj_spec o H (Pb v)) l) by (intros v Hv; apply C68_afterburner_exact; [exact X|apply (Permutation_in v (Permutation_sym PM) Hv)]).
  assert (IA : incl l A) by (intros v Hv; apply (Permutation_in v (Permutation_sym PM) Hv)).
  destruct l as [|x l'] eqn:EL.
  - cbn [sumZ]. apply Permutation_sym, Permutation_nil in PM. assert (EQ : obj_spec o H all_moved = obj_spec o H (part s)). { apply obj_ext. intros v _. unfold all_moved. rewrite PM. reflexivity. } lia.
  - rewrite (telescope (x :: l') SS IA) with (x := x) (l' := l'); [|intros u z Hu Nu _; exfalso; apply Nu, (Permutation_in u PM Hu)|discriminate|reflexivity].
    enough (EQ : obj_spec o H (Pb x) = obj_spec o H (part s)) by lia. apply obj_ext. intros v Hv. unfold Pbef. destruct (abef gt v x) eqn:F; [|reflexivity].
    destruct (in_dec Nat.eq_dec v A) as [I|I]; [|symmetry; apply (SY v Hv I)]. exfalso. apply (Permutation_in v PM) in I. inversion SS as [|? ? _ FA]; subst. rewrite Forall_forall in FA.
    destruct I as [<-|I]; [rewrite abef_irr in F; discriminate|]. pose proof (abef_trans gt x v x (FA v I) F) as Y. rewrite abef_irr in Y. discriminate.
Qed.
End Props.

(** *** Concrete instances *)
(** Four nodes; hyperedges {0,1} of weight 3 and {0,2,3} of weight 2; nodes 0 and 1 are in block 0.  Node 0 wants to move to block 1. *)
Definition aH : hypergraph := {| nodes := seq 0 4; edges := [0;1]%nat; pins := fun e => nth e [[0;1];[0;2;3]]%nat []; inc := fun v => nth v [[0;1];[0];[1];[1]]%nat [];
  nw := fun _ => 1; ew := fun e => nth e [3;2] 0 |}.
Definition aP : partition := fun v => nth v [Some 0;Some 0;Some 1;Some 1]%nat None.
Lemma a_started : started aH (state_of aH 2 aP).
Proof.
  apply state_of_started; [apply wf_hgb_sound; vm_compute; reflexivity| |].
  - intros v b. unfold aP. do 4 (destruct v as [|v]; [cbn; intros E; inversion E; lia|]). cbn. destruct v; discriminate.
  - intros v Hv. cbn in Hv. destruct Hv as [<-|[<-|[<-|[<-|[]]]]]; cbn; eexists; (split; [reflexivity|lia]).
Qed.
(** Nodes 0 (gain 1) and 1 (gain 3) want to move to block 1: for km1, moving 0 alone costs 3 - 2 = 1, and moving 1 after it gains 3. *)
Definition agt : nat -> Z * nat := fun v => nth v [(1, 1%nat);(3, 1%nat);(0, 1%nat);(0, 1%nat)] (0, 0%nat).
Theorem C68_example : ab_input aH Okm1 (state_of aH 2 aP) agt [0;1]%nat /\
  exists a, afterburn aH Okm1 (state_of aH 2 aP) agt [0;1]%nat a /\ ag a 0%nat = 1 /\ ag a 1%nat = -3 /\ obj_spec Okm1 aH (all_moved (state_of aH 2 aP) agt [0;1]%nat) - obj_spec Okm1 aH aP = -2.
Proof.
  assert (I : ab_input aH Okm1 (state_of aH 2 aP) agt [0;1]%nat).
  { constructor; [apply a_started| |repeat constructor; cbn; lia|intros x [<-|[<-|[]]]; cbn; auto| |left; discriminate].
    - intros v Hv. cbn in Hv. destruct Hv as [<-|[<-|[<-|[<-|[]]]]]; cbn; lia.
    - intros v Hv N. cbn in Hv. destruct Hv as [<-|[<-|[<-|[<-|[]]]]]; cbn in *; try reflexivity; exfalso; apply N; auto. }
  split; [exact I|]. destruct (C68_completes aH Okm1 (state_of aH 2 aP) agt [0;1]%nat) as [a X]. exists a. split; [exact X|].
  rewrite (C68_afterburner_exact _ _ _ _ _ I a 0%nat X (or_introl eq_refl)), (C68_afterburner_exact _ _ _ _ _ I a 1%nat X (or_intror (or_introl eq_refl))). vm_compute. auto.
Qed.
(** For soed a two-pin hyperedge counts its weight once instead of twice: the afterburner accepts a move that makes the objective worse. *)
Definition agt1 : nat -> Z * nat := fun v => nth v [(2, 1%nat);(0, 0%nat);(0, 1%nat);(0, 1%nat)] (0, 0%nat).
Theorem C68_refuted_soed : exists H s gt A a v, started H s /\ (forall v, In v (nodes H) -> (tg gt v < pk s)%nat) /\ NoDup A /\ incl A (nodes H) /\
  (forall v, In v (nodes H) -> ~ In v A -> part s v = Some (tg gt v)) /\ In v A /\
  afterburn H Osoed s gt A a /\ ag a v <= 0 /\ obj_spec Osoed H (part s) < obj_spec Osoed H (move (part s) v (tg gt v)) /\
  forall u, In u (nodes H) -> Pbef s gt v u = part s u.
Proof.
  exists aH, (state_of aH 2 aP), agt1, [0%nat]. destruct (C68_completes aH Osoed (state_of aH 2 aP) agt1 [0%nat]) as [a X]. exists a, 0%nat.
  split; [apply a_started|]. split; [intros v Hv; cbn in Hv; destruct Hv as [<-|[<-|[<-|[<-|[]]]]]; cbn; lia|]. split; [repeat constructor; cbn; tauto|].
  split; [intros x [<-|[]]; cbn; auto|]. split; [intros v Hv N; cbn in Hv; destruct Hv as [<-|[<-|[<-|[<-|[]]]]]; cbn in *; try reflexivity; exfalso; apply N; auto|].
  split; [left; reflexivity|]. split; [exact X|].
  assert (HA : incl [0%nat] (nodes aH)) by (intros x [<-|[]]; cbn; auto).
  destruct (bend aH Osoed (state_of aH 2 aP) agt1 (proj1 a_started) [0%nat] a HA X) as [E V].
  split; [|split; [vm_compute; reflexivity|]].
  - rewrite E. unfold vsum. cbn [edges aH sumZ]. rewrite (proj2 (V 0%nat)), (proj2 (V 1%nat)); [vm_compute; discriminate| |]; exists 0%nat; (split; [left; reflexivity|cbn; auto]).
  - intros u Hu. cbn in Hu. destruct Hu as [<-|[<-|[<-|[<-|[]]]]]; reflexivity.
Qed.
