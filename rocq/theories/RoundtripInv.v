(** Invariants of [Roundtrip]. *)
From Coq Require Import List Arith Lia Bool Permutation Sorted.
From Verif Require Import Base Batch INARep INAOps2 RegTree RegTreeSpec RegTreeInv RegTreeInv2 RegTreeForest DynEdge DynEdgeSpec DynEdgeThms Roundtrip.
Import ListNotations.
Local Open Scope nat_scope.

Lemma fop_snoc {A} (R : A -> A -> Prop) l b : ForallOrdPairs R l -> (forall a, In a l -> R a b) -> ForallOrdPairs R (l ++ [b]).
Proof.
  induction 1 as [|a l F H IH]; intros Q; cbn.
  - repeat constructor.
  - constructor; [|apply IH; intros; apply Q; right; auto].
    apply Forall_app. split; [exact F|]. constructor; [apply Q; left; auto|constructor].
Qed.
Lemma fop_split {A} (R : A -> A -> Prop) l1 a l2 b l3 : ForallOrdPairs R (l1 ++ a :: l2 ++ b :: l3) -> R a b.
Proof.
  induction l1 as [|x l1 IH]; cbn; intro H; inversion H; subst; auto.
  rewrite Forall_forall in H2. apply H2, in_or_app. right. left. auto.
Qed.
Lemma fop_impl {A} (R Q : A -> A -> Prop) l : (forall a b, In a l -> In b l -> R a b -> Q a b) -> ForallOrdPairs R l -> ForallOrdPairs Q l.
Proof.
  intros H F. induction F as [|a l F1 F IH]; [constructor|]. constructor.
  - rewrite Forall_forall in *. intros b Hb. apply H; cbn; auto.
  - apply IH. intros; apply H; cbn; auto.
Qed.

(** a contraction that has taken effect and whose hyperedges may still be open *)
Fixpoint early (p : pc) : option (nat * nat) :=
  match p with CStart x y | CEnd x y _ => Some (x, y) | Rel _ k => early k | _ => None end.

Lemma early_phase p x y : early p = Some (x, y) -> phase p = Some (x, y).
Proof. induction p; cbn; intro H; try discriminate; auto. Qed.

(** index [m] lies in the interval of the contraction of [y] *)
Definition during (g : G) (pcs : nat -> pc) (y m : nat) : Prop :=
  (exists a b, iv g y = Some (a, b) /\ a <= m < b) \/
  (exists t x, (exists s, pcs t = CEnd x y s /\ s <= m <= ix g) \/
               (exists s e, (pcs t = CAcqU x y s e \/ pcs t = CDec x y s e) /\ s <= m < e)).

Record hinv (n mx : nat) (w0 : nat -> nat) (P0 : list nat) (g : G) (pcs : nat -> pc) (e : edge) (ops : list eop) (r : option nat) : Prop := {
  j_run : srun n mx w0 (g, pcs);
  j_er : erun P0 ops e;
  j_par : forall o, In o ops -> o_v o < n /\ en g (o_v o) = false /\ par g (o_v o) = o_u o;
  j_phv : forall t x y, phase (pcs t) = Some (x, y) -> ver g y = Some (cv g);
  j_valid : r = None -> forall y, In y (valid e) -> en g y = false -> exists t x, early (pcs t) = Some (x, y);
  j_lt : forall y, In y (valid e) -> y < n;
  j_rm : forall k, r = Some k -> k < cv g /\ (forall o, In o ops -> exists j, ver g (o_v o) = Some j /\ j <= k) /\
         forall x, In x (valid e) -> par g x = x \/ exists j, ver g x = Some j /\ k < j;
  j_ver : forall o, In o ops -> exists j, ver g (o_v o) = Some j /\ j <= cv g;
  j_vs : ForallOrdPairs (fun o1 o2 => forall j1 j2, ver g (o_v o1) = Some j1 -> ver g (o_v o2) = Some j2 -> j1 <= j2) ops;
  j_tm : exists tm : nat -> nat, (forall o, In o ops -> during g pcs (o_v o) (tm (o_v o)) /\ tm (o_v o) <= ix g) /\
         ForallOrdPairs (fun o1 o2 => tm (o_v o1) <= tm (o_v o2)) ops }.

(** What one step of a thread leaves unchanged for contracted nodes. *)
Section Frame.
Variables (n mx : nat) (w0 : nat -> nat) (g : G) (pcs : nat -> pc) (g' : G) (pcs' : nat -> pc).
Hypothesis I : inv n mx w0 (g, pcs).
Hypothesis S : step n mx (g, pcs) (g', pcs').
Hypothesis C : cv g' = cv g.

Lemma fr_cases : (g' = g /\ exists t u v, pcs t = Idle /\ pcs' = upd pcs t (RAcq u v)) \/
  exists t p, exec mx t g (pcs t) = Some (g', p) /\ pcs' = upd pcs t p.
Proof.
  inversion S; subst.
  - left. split; auto. exists t, u, v. auto.
  - right. eauto.
  - cbn in C. exfalso. lia.
Qed.

Lemma fr_dis y : en g y = false -> en g' y = false /\ par g' y = par g y /\ ver g' y = ver g y /\
  (forall i, iv g y = Some i -> iv g' y = Some i) /\ ix g <= ix g'.
Proof.
  intros E. destruct fr_cases as [(-> & _)|(t & p & X & _)]; [repeat split; auto|].
  pose proof (i_pc _ _ _ _ I t) as OK. cbn in OK.
  pose proof (exec_guar n mx t g _ _ _ OK (i_dis _ _ _ _ I) X) as Gu.
  destruct (i_dis _ _ _ _ I y E) as (N & _). cbn in N.
  repeat split.
  - eapply en_off; eauto.
  - eapply par_dis; eauto.
  - destruct (exec_ver _ _ _ _ _ _ X) as (_ & [(-> & _)|[(v & w & Ep & Ev & Eq)|(x & z & Ep & Ev & Eq)]]); auto.
    + rewrite Ep in OK. cbn in OK. rewrite Ev. destruct (Nat.eq_dec y v) as [->|Q]; [|now rewrite upd_other]. destruct OK as (_ & _ & _ & P & _). congruence.
    + rewrite Ep in OK. cbn in OK. rewrite Ev. destruct (Nat.eq_dec y z) as [->|Q]; [|now rewrite upd_other]. destruct OK as (_ & _ & _ & _ & P & _). congruence.
  - intros i V. eapply gu_iv; eauto.
  - eapply gu_ix; eauto.
Qed.

Lemma fr_phv : sinv n (g, pcs) -> (forall t x y, phase (pcs t) = Some (x, y) -> ver g y = Some (cv g)) ->
  forall t x y, phase (pcs' t) = Some (x, y) -> ver g' y = Some (cv g').
Proof.
  intros SI H t x y Ph. rewrite C. destruct fr_cases as [(Eg & t0 & u & v & Id & Ep')|(t0 & p & X & Ep')]; rewrite Ep' in Ph.
  - rewrite Eg. destruct (upd_cases pcs t0 (RAcq u v) t) as [(-> & E)|(_ & E)]; rewrite E in Ph; [discriminate|]. eauto.
  - assert (K : forall t x y, phase (pcs t) = Some (x, y) -> ver g' y = Some (cv g)).
    { intros t1 x1 y1 Ph1. destruct (phase_dis n mx w0 g pcs I t1 x1 y1 Ph1) as (E & _).
      destruct (fr_dis y1 E) as (_ & _ & -> & _). eauto. }
    destruct (upd_cases pcs t0 p t) as [(-> & E)|(_ & E)]; rewrite E in Ph; [|eauto].
    destruct (phase_step _ _ _ _ _ _ X) as [F|[(F & _)|(a & b & Ep & F & En & Eg)]]; [|congruence|].
    + rewrite F in Ph. eauto.
    + rewrite F in Ph. injection Ph as -> ->. rewrite Eg. cbn [merge ver].
      pose proof (i_pc _ _ _ _ I t0) as OK. cbn in OK. rewrite Ep in OK. cbn [pcok] in OK. destruct OK as (Lx & Ly & N & St).
      assert (P : par g y = x).
      { rewrite Ep in X. unfold exec in X. destruct (en g y && (pend g y =? 0) && (wt g x + wt g y <=? mx)) eqn:B.
        - eqb. destruct St as [St|[St|St]]; [exact St|lia|congruence].
        - exfalso. destruct (_ && _ && _) in X; injection X as _ <-; cbn in F; discriminate. }
      destruct (ver g y) as [k|] eqn:V.
      * f_equal. exact (s_ver1 _ _ SI y k Ly En V).
      * apply (i_ver _ _ _ _ I) in V. cbn in V. congruence.
Qed.

Lemma fr_early y : (forall t x a, pcs t = CEnd x y a -> pcs' t = CEnd x y a) ->
  (en g y = true \/ exists t x, early (pcs t) = Some (x, y)) ->
  en g' y = false -> exists t x, early (pcs' t) = Some (x, y).
Proof.
  intros K H E. destruct fr_cases as [(-> & t0 & u & v & Id & Ep')|(t0 & p & X & Ep')].
  - destruct H as [H|(t & x & H)]; [congruence|]. exists t, x. rewrite Ep'. rewrite upd_other; auto. intros ->. rewrite Id in H. discriminate.
  - destruct H as [H|(t & x & H)].
    + destruct (exec_log _ _ _ _ _ _ X) as [(_ & A & _)|(a & b & Ep & -> & Ey & Py & W)]; [congruence|].
      cbn in E. destruct (Nat.eq_dec y b) as [->|N]; [|rewrite upd_other in E; congruence].
      exists t0, a. rewrite Ep', upd_same. rewrite Ep in X. unfold exec in X. rewrite Ey, Py in X. cbn [Nat.eqb andb] in X.
      rewrite (proj2 (Nat.leb_le _ _) W) in X. injection X as <-. reflexivity.
    + destruct (Nat.eq_dec t t0) as [->|N]; [|exists t, x; rewrite Ep', upd_other; auto].
      destruct (pcs t0) eqn:Ep; cbn in H; try discriminate.
      * injection H as -> ->. cbn in X. injection X as <- <-. exists t0, x. rewrite Ep', upd_same. reflexivity.
      * injection H as -> ->. exists t0, x. rewrite (K t0 x s); auto.
      * exists t0, x. rewrite Ep', upd_same. destruct l as [|a [|b l]]; cbn in X; injection X as _ <-; exact H.
Qed.

Lemma fr_during y m : m <= ix g -> during g pcs y m -> during g' pcs' y m.
Proof.
  intros Lm H.
  assert (Ix : ix g <= ix g').
  { destruct fr_cases as [(-> & _)|(t & p & X & _)]; auto. eapply gu_ix, exec_guar; eauto; [exact (i_pc _ _ _ _ I t)|apply (i_dis _ _ _ _ I)]. }
  assert (D : forall a b, iv g y = Some (a, b) -> iv g' y = Some (a, b)).
  { intros a b V. apply (fr_dis y); auto. exact (i_iv _ _ _ _ I y _ V). }
  destruct H as [(a & b & V & L)|(t & x & H)]; [left; exists a, b; auto|].
  destruct fr_cases as [(Eg & t0 & u & v & Id & Ep')|(t0 & p & X & Ep')]; rewrite Ep'.
  - right. exists t, x. assert (t <> t0) by (intros ->; destruct H as [(s & H & _)|(s & e & [H|H] & _)]; congruence).
    rewrite upd_other by auto. rewrite Eg. exact H.
  - destruct (Nat.eq_dec t t0) as [->|N].
    + destruct H as [(s & Ep & L)|(s & e & [Ep|Ep] & L)]; rewrite Ep in X; cbn in X.
      * injection X as <- <-. right. exists t0, x. right. exists s, (Datatypes.S (ix g)). rewrite upd_same. split; [auto|lia].
      * unfold acquire in X. destruct (lk g x); [discriminate|]. injection X as <- <-. right. exists t0, x. right. exists s, e.
        rewrite upd_same. auto.
      * injection X as <- <-. left. exists s, e. cbn. rewrite upd_same. auto.
    + right. exists t, x. rewrite upd_other by auto. destruct H as [(s & Ep & L)|H]; [left; exists s; split; auto; lia|right; exact H].
Qed.

Lemma fr_late k x : k < cv g -> (par g x = x \/ exists j, ver g x = Some j /\ k < j) ->
  par g' x = x \/ exists j, ver g' x = Some j /\ k < j.
Proof.
  intros Lk H. destruct fr_cases as [(-> & _)|(t & p & X & _)]; auto.
  destruct (exec_ver _ _ _ _ _ _ X) as (_ & [(-> & ->)|[(v & w & Ep & -> & ->)|(a & b & Ep & -> & ->)]]); auto.
  - destruct (Nat.eq_dec x v) as [->|N]; [right; rewrite upd_same; eauto|]. rewrite !upd_other by auto. exact H.
  - destruct (Nat.eq_dec x b) as [->|N]; [left; apply upd_same|]. rewrite !upd_other by auto. exact H.
Qed.
End Frame.

Lemma pc_eq (p q : pc) : p = q \/ p <> q.
Proof. assert ({p = q} + {p <> q}) as [H|H] by (repeat decide equality); auto. Qed.

Lemma idle_en n mx w0 g pcs y : srun n mx w0 (g, pcs) -> (forall t, pcs t = Idle) -> y < n -> en g y = true -> par g y = y.
Proof.
  intros R Q L E. eapply forest_no_pending; eauto; [apply run_inv, srun_run; exact R|exact (s_forest _ _ (srun_sinv _ _ _ _ R))].
Qed.


Lemma valid_perm P0 ops e l : NoDup P0 -> erun P0 ops e -> Permutation l (valid e) -> valid (mkEdge (l ++ invalid e) (e_size e)) = l.
Proof.
  intros NP R HP. destruct (erun_inv _ _ _ NP R) as [C _]. apply valid_mk.
  rewrite (Permutation_length HP). unfold valid. rewrite firstn_length_le; [reflexivity|exact (ci_len _ _ _ C)].
Qed.

Lemma work_valid P0 ops e x y : NoDup P0 -> erun P0 ops e -> In y (valid e) -> x <> y ->
  forall z, In z (valid (fst (contractHyperedge e x y))) -> z = x \/ In z (valid e).
Proof.
  intros NP R Hy N z Hz. destruct (erun_inv _ _ _ NP R) as [C _].
  destruct (contract_spec e x y) as (_ & mid & P & D);
    [exact (NoDup_app_remove_r _ _ (ci_nd _ _ _ C))|exact (ci_len _ _ _ C)|exact Hy|exact N|].
  cbv zeta in D.
  assert (M : forall a, In a mid -> In a (valid e)).
  { intros a Ha. eapply Permutation_in; [exact P|]. apply in_or_app. auto. }
  destruct D as [(_ & _ & D & _)|(_ & _ & D & _)].
  - rewrite D in Hz. auto.
  - rewrite D in Hz. apply in_app_or in Hz. destruct Hz as [Hz|[<-|[]]]; auto.
Qed.

Lemma ops_out P0 ops e y : NoDup P0 -> erun P0 ops e -> In y (valid e) -> ~ In y (map o_v ops).
Proof. intros NP R Hy. destruct (erun_inv _ _ _ NP R) as [C _]. apply (ci_valid _ _ _ C). exact Hy. Qed.

Lemma hrun_inv n mx w0 P0 h : NoDup P0 -> (forall x, In x P0 -> x < n) -> hrun n mx w0 P0 h ->
  hinv n mx w0 P0 (fst (h_s h)) (snd (h_s h)) (h_e h) (h_ops h) (h_rm h).
Proof.
  intros NP LP R. induction R as [|h h' R IH S O].
  - split; cbn; try tauto; try discriminate; try constructor.
    + unfold valid. cbn. rewrite firstn_all. auto.
    + exists (fun _ => 0). split; [tauto|constructor].
  - destruct S as [[g pcs] [g' pcs'] e ops r S C K|g pcs e ops t x y a Ep Hy|g pcs e l ops r Q HP|g pcs e l ops Q HP];
      cbn [h_s h_e h_ops h_rm fst snd] in *; destruct IH as [JR JE JP JV JVal JL JRm JVr JVs (tm & JT & JTs)];
      pose proof (run_inv _ _ _ _ (srun_run _ _ _ _ JR)) as I; pose proof (srun_sinv _ _ _ _ JR) as SI.
    + pose proof (fr_dis n mx w0 g pcs g' pcs' I S C) as FD.
      assert (Ix : ix g <= ix g').
      { destruct (fr_cases n mx w0 g pcs g' pcs' I S C) as [(-> & _)|(t & p & X & _)]; auto. eapply gu_ix, exec_guar; eauto; [exact (i_pc _ _ _ _ I t)|apply (i_dis _ _ _ _ I)]. }
      split; auto.
      * eapply srun_S; eauto.
      * intros o Ho. destruct (JP o Ho) as (A & B & D). destruct (FD _ B) as (E1 & E2 & _). repeat split; auto; congruence.
      * eapply fr_phv; eauto.
      * intros Er y Hy E. eapply (fr_early n mx w0 g pcs g' pcs'); eauto.
        -- intros t x a Et. destruct (pc_eq (pcs' t) (CEnd x y a)) as [Q|Q]; auto. destruct (K Er t x y a Et Q Hy).
        -- destruct (en g y) eqn:E0; auto.
      * intros k Ek. destruct (JRm k Ek) as (A & B & D). split; [lia|]. split.
        -- intros o Ho. destruct (FD _ (proj1 (proj2 (JP o Ho)))) as (_ & _ & -> & _). auto.
        -- intros x Hx. eapply (fr_late n mx w0 g pcs g' pcs'); eauto.
      * intros o Ho. destruct (FD _ (proj1 (proj2 (JP o Ho)))) as (_ & _ & -> & _). rewrite C. auto.
      * eapply fop_impl; [|exact JVs]. intros o1 o2 H1 H2 H j1 j2.
        destruct (FD _ (proj1 (proj2 (JP o1 H1)))) as (_ & _ & -> & _). destruct (FD _ (proj1 (proj2 (JP o2 H2)))) as (_ & _ & -> & _). apply H.
      * exists tm. split; [|exact JTs]. intros o Ho. destruct (JT o Ho) as (A & B). split; [|lia]. eapply fr_during; eauto.
    + assert (Ph : phase (pcs t) = Some (x, y)) by (rewrite Ep; reflexivity).
      destruct (phase_dis n mx w0 g pcs I t x y Ph) as (Ey & Vy & Py & N & Lx & Ly).
      assert (Ex : en g x = true).
      { destruct (en g x) eqn:Q; auto. destruct (kids_done n mx w0 g pcs I x Lx Q y Ly) as (i & V); auto. congruence. }
      pose proof (ops_out _ _ _ _ NP JE Hy) as Ny.
      assert (Nx : ~ In x (map o_v ops)).
      { intro Hx. apply in_map_iff in Hx. destruct Hx as (o & <- & Ho). destruct (JP o Ho) as (_ & B & _). congruence. }
      split; auto.
      * apply er_contract; auto.
      * intros o Ho. apply in_app_or in Ho. destruct Ho as [Ho|[<-|[]]]; [auto|cbn; auto].
      * intros _ z Hz Ez. destruct (work_valid _ _ _ _ _ NP JE Hy N z Hz) as [->|Hz']; [congruence|auto].
      * intros z Hz. destruct (work_valid _ _ _ _ _ NP JE Hy N z Hz) as [->|Hz']; auto.
      * discriminate.
      * intros o Ho. apply in_app_or in Ho. destruct Ho as [Ho|[<-|[]]]; [auto|]. cbn. exists (cv g). split; [eauto|lia].
      * apply fop_snoc; auto. intros o Ho j1 j2 V1 V2. cbn in V2. rewrite (JV t x y Ph) in V2. injection V2 as <-.
        destruct (JVr o Ho) as (j & V & L). congruence.
      * exists (upd tm y (ix g)).
        assert (Neq : forall o, In o ops -> upd tm y (ix g) (o_v o) = tm (o_v o)).
        { intros o Ho. apply upd_other. intros <-. apply Ny. apply in_map. auto. }
        split.
        -- intros o Ho. apply in_app_or in Ho. destruct Ho as [Ho|[<-|[]]]; [rewrite (Neq o Ho); auto|].
           cbn. rewrite upd_same. split; [|lia]. right. exists t, x. left. exists a. split; [exact Ep|].
           pose proof (i_pc _ _ _ _ I t) as OK. cbn in OK. rewrite Ep in OK. cbn in OK. lia.
        -- apply fop_snoc.
           ++ eapply fop_impl; [|exact JTs]. intros o1 o2 H1 H2 H. rewrite (Neq o1 H1), (Neq o2 H2). exact H.
           ++ intros o Ho. cbn. rewrite (Neq o Ho), upd_same. apply (JT o Ho).
    + pose proof (valid_perm _ _ _ _ NP JE HP) as EV.
      assert (Hin : forall z, In z (valid (mkEdge (l ++ invalid e) (e_size e))) -> In z (valid e)).
      { intros z Hz. rewrite EV in Hz. eapply Permutation_in; eauto. }
      split; auto.
      * eapply srun_S; eauto. now constructor.
      * now apply er_sort.
      * intros t x y Ph. rewrite Q in Ph. discriminate.
      * intros k Ek. destruct (JRm k Ek) as (A & B & D). cbn [set_cv cv ver par]. split; [lia|]. split; auto.
      * intros o Ho. destruct (JVr o Ho) as (j & V & L). exists j. cbn. split; [exact V|lia].
      * exists tm. auto.
    + pose proof (valid_perm _ _ _ _ NP JE HP) as EV.
      assert (Hin : forall z, In z (valid (mkEdge (l ++ invalid e) (e_size e))) -> In z (valid e)).
      { intros z Hz. rewrite EV in Hz. eapply Permutation_in; eauto. }
      split; auto.
      * eapply srun_S; eauto. now constructor.
      * now apply er_sort.
      * intros t x y Ph. rewrite Q in Ph. discriminate.
      * intros k Ek. injection Ek as <-. cbn [set_cv cv ver par]. split; [lia|]. split; auto.
        intros z Hz. left. apply (idle_en n mx w0 g pcs z JR Q); [auto|].
        destruct (en g z) eqn:E; auto. destruct (JVal eq_refl z (Hin z Hz) E) as (t & x & H). rewrite Q in H. discriminate.
      * intros o Ho. destruct (JVr o Ho) as (j & V & L). exists j. cbn. split; [exact V|lia].
      * exists tm. auto.
Qed.
