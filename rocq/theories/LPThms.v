(** LPThms.v - label propagation: what a run preserves, given what the loops and the rebalancer guarantee. *)
From Verif Require Import Base Spec SpecLemmas PHG PHGProofs GainCache Metrics PropsA Conc DetLP DetLPThms Jet JetThms JetProps LP.

Lemma opt_eqb_eq a b : opt_eqb a b = true <-> a = b.
Proof. destruct a, b; cbn; rewrite ?Nat.eqb_eq; split; congruence. Qed.

Lemma NoDup_app_intro_single (l : list nat) v : NoDup l -> ~ In v l -> NoDup (l ++ [v]).
Proof. intros N X. apply (Permutation_NoDup (l := v :: l)); [apply Permutation_cons_append|constructor; assumption]. Qed.

Section G.
Variables (H : hypergraph) (k : nat) (L : nat -> Z) (o : objective) (fixed : nat -> bool).
Variables (mu un rebal : bool) (thr : Z).
Variables (D : Type) (imb : list Z -> D) (dlt : D -> D -> bool) (small : Z -> Z -> bool).
Variables (large_k : bool) (removed : Z).
(** Whether the lists of active nodes have to be duplicate free (parallel loops). *)
Variable dupfree : bool.
Definition good (l : list nat) : Prop := dupfree = true -> NoDup l.
Variable phase : bool -> list nat -> phg -> nact -> phg -> Z -> list nat -> nact -> Prop.
Variable rb : phg -> Z -> phg -> Z -> list mv -> Prop.
Variable rollb : list nat -> (nat -> option nat) -> phg -> phg -> Prop.
Local Notation rd := (ready H k).
Local Notation obj := (obj_spec o H).

(** What the loop over the active nodes guarantees. *)
Record phase_good : Prop := {
  pg_main : forall u act s x s' d mvd y, phase u act s x s' d mvd y -> rd s -> incl act (nodes H) -> good act ->
    rd s' /\ d = obj (part s') - obj (part s) /\ (forall v, part s' v <> part s v -> In v mvd) /\ incl mvd act /\ (forall v, fixed v = true -> part s' v = part s v);
  pg_un : forall act s x s' d mvd y, phase true act s x s' d mvd y -> rd s -> incl act (nodes H) -> good act -> y = x;
  pg_con : forall act s x s' d mvd y, phase false act s x s' d mvd y -> rd s -> incl act (nodes H) -> good act ->
    (forall b, (b < k)%nat -> block_weight H (part s') b <= Z.max (L b) (block_weight H (part s) b)) /\ (nx x = [] -> incl (nx y) (nodes H) /\ good (nx y)) }.
(** ... if it also never makes the objective worse *)
Definition phase_mono : Prop := forall u act s x s' d mvd y, phase u act s x s' d mvd y -> rd s -> incl act (nodes H) -> good act -> d <= 0.
Definition rb_good : Prop := forall s q s' q' ms, rb s q s' q' ms -> rd s ->
  rd s' /\ q' - q = obj (part s') - obj (part s) /\ NoDup (map m_u ms) /\
  (forall m, In m ms -> In (m_u m) (nodes H) /\ part s (m_u m) = Some (m_from m)) /\ (forall v, ~ In v (map m_u ms) -> part s' v = part s v) /\
  (forall v, fixed v = true -> part s' v = part s v).
Definition rollb_good : Prop := forall l od s s', rollb l od s s' -> rd s -> incl l (nodes H) -> (forall v, In v l -> exists b, od v = Some b /\ (b < k)%nat) ->
  rd s' /\ forall v, part s' v = if mem v l then od v else part s v.
Hypotheses (PG : phase_good) (RB : rb_good) (RO : rollb_good).
Local Notation activate1 := (activate1 mu).
Local Notation activate_edge := (activate_edge H mu thr).
Local Notation activateNN := (activateNN H mu thr).

(** *** Activation *)
Definition ini (oi : nat -> bool) (v : nat) : Prop := mu = false \/ oi v = true.
Record act_inv (P : partition) (x : nact) : Prop := {
  ai_nodes : incl (nx x) (nodes H);
  ai_old : forall v, ini (oin x) v -> In v (nodes H) -> old x v = P v;
  ai_ini : forall v, In v (nx x) -> ini (oin x) v;
  ai_nd : NoDup (nx x) /\ forall v, In v (nx x) -> inx x v = true }.
Lemma activate1_inv P x v : In v (nodes H) -> act_inv P x -> act_inv P (activate1 false P x v).
Proof.
  intros Hv [A B C [N1 N2]]. unfold LP.activate1. destruct (_ || _) eqn:E; [|split; auto]. destruct (inx x v) eqn:Ix; [split; auto|]. cbn [orb] in E. unfold unin in *.
  split; cbn [nx old oin inx].
  - intros w Hw. apply in_app_or in Hw. destruct Hw as [Hw|[<-|[]]]; [apply A; exact Hw|exact Hv].
  - intros w Hi Hw. destruct (mu && negb (oin x v)) eqn:U.
    + unfold upd at 1. destruct (Nat.eqb_spec w v) as [->|N]; [reflexivity|]. apply B; [|exact Hw]. destruct Hi as [Hi|Hi]; [left; exact Hi|right]. rewrite upd_other in Hi by exact N. exact Hi.
    + apply B; assumption.
  - intros w Hw. destruct (mu && negb (oin x v)) eqn:U.
    + destruct (Nat.eq_dec w v) as [->|N]; [right; apply upd_same|]. apply in_app_or in Hw. destruct Hw as [Hw|[Hw|[]]]; [|congruence]. destruct (C w Hw) as [X|X]; [left; exact X|right]. rewrite upd_other by exact N. exact X.
    + apply in_app_or in Hw. destruct Hw as [Hw|[<-|[]]]; [apply C; exact Hw|]. unfold ini. destruct mu; [right|left; reflexivity]. cbn [andb] in U. apply negb_false_iff in U. exact U.
  - split.
    + apply NoDup_app_intro_single; [exact N1|]. intros X. rewrite (N2 v X) in Ix. discriminate.
    + intros w Hw. destruct (Nat.eq_dec w v) as [->|N]; [apply upd_same|]. rewrite upd_other by exact N. apply in_app_or in Hw. destruct Hw as [Hw|[Hw|[]]]; [apply N2; exact Hw|congruence].
Qed.
Lemma activate_edge_inv P x e : wf_hg H -> In e (edges H) -> act_inv P x -> act_inv P (activate_edge false P x e).
Proof.
  intros WF He I. unfold LP.activate_edge. destruct (_ && _); [|exact I].
  assert (X : forall l y, incl l (nodes H) -> act_inv P y -> act_inv P (fold_left (activate1 false P) l y)).
  { induction l as [|v l IH]; intros y Sub Iy; cbn [fold_left]; [exact Iy|]. apply IH; [intros w Hw; apply Sub; right; exact Hw|]. apply activate1_inv; [apply Sub; left; reflexivity|exact Iy]. }
  destruct (X (pins H e) x (fun v Hv => wf_pins_nodes H WF e v He Hv) I) as [A B C N]. split; cbn [nx old oin inx]; assumption.
Qed.
Lemma activateNN_inv P x hn : wf_hg H -> In hn (nodes H) -> act_inv P x -> act_inv P (activateNN false P x hn).
Proof.
  intros WF Hh I. unfold LP.activateNN. cbn [andb]. assert (Sub : forall e, In e (inc H hn) -> In e (edges H)) by (intros e He; apply (wf_inc H WF hn e Hh); exact He).
  revert x I Sub. generalize (inc H hn) as l. induction l as [|e l IH]; intros x I Sub; cbn [fold_left]; [exact I|].
  apply IH; [|intros f Hf; apply Sub; right; exact Hf]. apply activate_edge_inv; [exact WF|apply Sub; left; reflexivity|exact I].
Qed.
Lemma activate_all_inv P l : wf_hg H -> incl l (nodes H) -> forall x, act_inv P x -> act_inv P (fold_left (activateNN false P) l x).
Proof.
  intros WF. induction l as [|v l IH]; intros Sub x I; cbn [fold_left]; [exact I|]. apply IH; [intros w Hw; apply Sub; right; exact Hw|]. apply activateNN_inv; [exact WF|apply Sub; left; reflexivity|exact I].
Qed.
Lemma store_fold (P : partition) l : forall od v, fold_left (fun od v => upd od v (P v)) l od v = if mem v l then P v else od v.
Proof.
  induction l as [|w l IH]; intros od v; cbn [fold_left]; [reflexivity|]. rewrite IH. unfold mem. cbn [existsb]. fold (mem v l). destruct (mem v l); [rewrite orb_true_r; reflexivity|].
  rewrite orb_false_r. unfold upd. destruct (Nat.eqb_spec v w) as [->|]; reflexivity.
Qed.
(** *** Nodes appended for the rebalancing moves *)
Lemma append_spec ms : forall l0 od oi l od' oi', fold_left (app_step mu) ms (l0, od, oi) = (l, od', oi') -> NoDup (map m_u ms) ->
  exists ap, l = l0 ++ ap /\ incl ap (map m_u ms) /\
  (forall v, ini oi v -> ini oi' v /\ od' v = od v) /\
  (forall v, oi' v = true -> oi v = true \/ In v ap) /\
  (forall m, In m ms -> (~ ini oi (m_u m) -> In (m_u m) ap /\ od' (m_u m) = Some (m_from m)) /\ (ini oi (m_u m) -> (In (m_u m) ap <-> od (m_u m) = Some (m_from m)))) /\
  (forall v, ~ In v (map m_u ms) -> od' v = od v /\ oi' v = oi v).
Proof.
  induction ms as [|m ms IH]; intros l0 od oi l od' oi' E N; cbn [fold_left] in E.
  - inversion E; subst. exists []. rewrite app_nil_r. split; [reflexivity|]. split; [intros v []|]. split; [tauto|]. split; [tauto|]. split; [intros m []|tauto].
  - inversion N as [|? ? Nm N']; subst. set (u := m_u m) in *.
    unfold app_step at 2 in E. fold u in E.
    destruct ((mu && negb (oi u)) || opt_eqb (Some (m_from m)) (od u)) eqn:Cd.
    + set (od1 := if mu && negb (oi u) then upd od u (Some (m_from m)) else od) in *. set (oi1 := if mu && negb (oi u) then upd oi u true else oi) in *.
      apply IH in E; [|exact N']. destruct E as (ap & -> & Sub & A & B & C & F). exists (u :: ap). rewrite <- app_assoc. split; [reflexivity|].
      assert (O1 : forall v, v <> u -> od1 v = od v /\ oi1 v = oi v) by (intros v Nv; subst od1 oi1; destruct (mu && negb (oi u)); [rewrite !upd_other by exact Nv|]; tauto).
      assert (I1 : ini oi1 u) by (subst oi1; unfold ini; destruct mu; [right|left; reflexivity]; cbn [andb]; destruct (oi u) eqn:X; cbn [negb]; [exact X|apply upd_same]).
      destruct (F u Nm) as [F1 F2].
      split; [intros v [<-|Hv]; [left; reflexivity|right; apply Sub; exact Hv]|].
      split; [|split; [|split]].
      * intros v Hi. destruct (Nat.eq_dec v u) as [->|Nv].
        -- assert (U0 : mu && negb (oi u) = false) by (destruct Hi as [-> | ->]; [reflexivity|apply andb_false_r]). subst od1 oi1. rewrite U0 in *. split; [unfold ini; rewrite F2; exact Hi|exact F1].
        -- destruct (O1 v Nv) as [X1 X2]. assert (Hi1 : ini oi1 v) by (unfold ini; rewrite X2; exact Hi). destruct (A v Hi1) as [Y1 Y2]. split; [exact Y1|congruence].
      * intros v Hv. destruct (Nat.eq_dec v u) as [->|Nv]; [right; left; reflexivity|]. destruct (B v Hv) as [X|X]; [left; rewrite <- (proj2 (O1 v Nv)); exact X|right; right; exact X].
      * intros m' [<-|Hm'].
        -- fold u. split.
           ++ intros Ni. split; [left; reflexivity|]. rewrite F1. subst od1. assert (U0 : mu && negb (oi u) = true) by (unfold ini in Ni; destruct mu, (oi u); cbn; tauto). rewrite U0. apply upd_same.
           ++ intros Hi. assert (U0 : mu && negb (oi u) = false) by (destruct Hi as [-> | ->]; [reflexivity|apply andb_false_r]). rewrite U0 in Cd. cbn [orb] in Cd. apply opt_eqb_eq in Cd. split; [intros _; congruence|intros _; left; reflexivity].
        -- assert (Nu : m_u m' <> u) by (intros X; apply Nm; rewrite <- X; apply in_map; exact Hm'). destruct (O1 _ Nu) as [X1 X2]. destruct (C m' Hm') as [C1 C2]. split.
           ++ intros Ni. assert (Ni1 : ~ ini oi1 (m_u m')) by (unfold ini; rewrite X2; exact Ni). destruct (C1 Ni1) as [Y1 Y2]. split; [right; exact Y1|exact Y2].
           ++ intros Hi. assert (Hi1 : ini oi1 (m_u m')) by (unfold ini; rewrite X2; exact Hi). specialize (C2 Hi1). rewrite X1 in C2. rewrite <- C2. split; [intros [Y|Y]; [congruence|exact Y]|intros Y; right; exact Y].
      * intros v Nv. cbn [map In] in Nv. destruct (F v) as [Y1 Y2]; [tauto|]. destruct (O1 v) as [X1 X2]; [fold u in Nv; intros Z; apply Nv; left; congruence|]. split; congruence.
    + apply IH in E; [|exact N']. destruct E as (ap & -> & Sub & A & B & C & F). exists ap. split; [reflexivity|]. split; [intros v Hv; right; apply Sub; exact Hv|].
      apply orb_false_iff in Cd. destruct Cd as [U0 Cd].
      split; [exact A|]. split; [exact B|]. split; [|intros v Nv; apply F; cbn [map In] in Nv; tauto].
      intros m' [<-|Hm']; [|apply C; exact Hm']. fold u. split.
      * intros Ni. exfalso. apply Ni. unfold ini. destruct mu; [right|left; reflexivity]. cbn [andb] in U0. apply negb_false_iff in U0. exact U0.
      * intros Hi. split; [intros Hin; exfalso; apply Nm; apply Sub; exact Hin|]. intros X. exfalso. assert (Y : opt_eqb (Some (m_from m)) (od u) = true) by (apply opt_eqb_eq; congruence). congruence.
Qed.

(** *** One round *)
Local Notation rs := (rs D).
Local Notation lround := (lround H k L mu un thr D imb dlt large_k removed phase rb rollb).
Local Notation lrun := (lrun H k L mu un thr D imb dlt small large_k removed phase rb rollb).
Local Notation isbal := (isbal k L large_k removed).
Local Notation ok := (acceptable H k L large_k removed).
Local Notation wt_of := (fun P => map (block_weight H P) (seq 0 k)).
Local Notation s_of := (r_s D). Local Notation q_of := (r_q D). Local Notation i_of := (r_i D).
Record RI (x : rs) : Prop := {
  ri_rd : rd (s_of x); ri_q : q_of x = obj (part (s_of x)); ri_i : i_of x = imb (wt_of (part (s_of x)));
  ri_act : incl (r_act D x) (nodes H); ri_good : good (r_act D x);
  ri_old : un = true -> forall v, ini (r_oin D x) v -> In v (nodes H) -> r_old D x v = part (s_of x) v;
  ri_ini : un = true -> forall v, In v (r_act D x) -> ini (r_oin D x) v }.
Lemma isbal_ok s : rd s -> (isbal s = true <-> ok (part s)).
Proof. intros RD. rewrite (isbal_P H k L large_k removed s RD). apply isbalP_spec. Qed.
Lemma iof_ok s : rd s -> iof k D imb s = imb (wt_of (part s)).
Proof. intros RD. unfold iof. rewrite (wts_P H k L s RD). reflexivity. Qed.
Lemma obj_same P Q : wf_hg H -> (forall v, P v = Q v) -> obj P = obj Q.
Proof. intros WF E. rewrite !AfterburnerThms.obj_sum. apply sumZ_ext. intros e _. apply AfterburnerThms.edge_ext. intros v _. apply E. Qed.
Lemma wt_same P Q : (forall v, P v = Q v) -> wt_of P = wt_of Q.
Proof. intros E. apply map_ext. intros b. apply block_weight_ext. intros v _. apply E. Qed.
Definition wkeep (P P' : partition) : Prop := forall b, (b < k)%nat -> block_weight H P' b <= Z.max (L b) (block_weight H P b).

(** What the moves of an unconstrained round have touched. *)
Lemma touched x s1 d1 mvd y s2 q2 ms ap od oi : RI x -> un = true ->
  phase true (r_act D x) (s_of x) (fresh (r_old D x) (r_oin D x)) s1 d1 mvd y -> rb s1 (q_of x + d1) s2 q2 ms -> append_moves mu ms (old y) (oin y) = (ap, od, oi) ->
  rd s1 /\ rd s2 /\ q2 = obj (part s2) /\ incl (mvd ++ ap) (nodes H) /\ (forall v, part s2 v <> part (s_of x) v -> In v (mvd ++ ap)) /\
  (forall v, In v (mvd ++ ap) -> od v = part (s_of x) v) /\ (forall v, ini (r_oin D x) v -> ini oi v /\ od v = r_old D x v) /\
  (forall v, ini oi v -> ini (r_oin D x) v \/ In v (mvd ++ ap)) /\ (forall v, fixed v = true -> part s2 v = part (s_of x) v) /\ y = fresh (r_old D x) (r_oin D x).
Proof.
  intros [I1 I2 I3 I4 I4' I5 I6] U PH RBx AP. pose proof (pg_un PG _ _ _ _ _ _ _ PH I1 I4 I4') as ->. destruct (pg_main PG _ _ _ _ _ _ _ _ PH I1 I4 I4') as (R1 & Ed & Ch & Mv & Fx).
  destruct (RB _ _ _ _ _ RBx R1) as (R2 & Eq & Nd & Fr & Un & Fx2). cbn [old oin fresh] in AP. unfold append_moves in AP.
  destruct (append_spec ms [] _ _ _ _ _ AP Nd) as (ap' & E & Sub & A & B & C & F). cbn [app] in E. subst ap'.
  specialize (I5 U). specialize (I6 U).
  assert (Sn : incl (mvd ++ ap) (nodes H)).
  { intros v Hv. apply in_app_or in Hv. destruct Hv as [Hv|Hv]; [apply I4, Mv; exact Hv|]. apply Sub in Hv. apply in_map_iff in Hv. destruct Hv as (m & <- & Hm). apply (Fr m Hm). }
  split; [exact R1|]. split; [exact R2|]. split; [lia|]. split; [exact Sn|].
  assert (Tch : forall m, In m ms -> ~ In (m_u m) mvd -> In (m_u m) ap /\ od (m_u m) = part (s_of x) (m_u m)).
  { intros m Hm Nm. destruct (Fr m Hm) as [Hn Pm]. assert (E0 : part s1 (m_u m) = part (s_of x) (m_u m)).
    { destruct (part s1 (m_u m)) as [a|] eqn:E1, (part (s_of x) (m_u m)) as [b|] eqn:E2; try reflexivity.
      - destruct (Nat.eq_dec a b) as [->|N]; [reflexivity|]. exfalso. apply Nm, Ch. congruence.
      - exfalso. apply Nm, Ch. congruence.
      - exfalso. apply Nm, Ch. congruence. }
    destruct (C m Hm) as [C1 C2]. assert (Dc : ini (r_oin D x) (m_u m) \/ ~ ini (r_oin D x) (m_u m)) by (unfold ini; destruct mu, (r_oin D x (m_u m)); intuition congruence).
    destruct Dc as [Dc|Dc].
    - specialize (I5 _ Dc Hn). split; [apply C2; [exact Dc|congruence]|]. rewrite (proj2 (A _ Dc)). exact I5.
    - destruct (C1 Dc) as [Y1 Y2]. split; [exact Y1|congruence]. }
  split; [|split; [|split; [|split; [|split; [|reflexivity]]]]].
  - intros v Hv. apply in_or_app. destruct (in_dec Nat.eq_dec v mvd) as [X|X]; [left; exact X|right].
    destruct (in_dec Nat.eq_dec v (map m_u ms)) as [Y|Y].
    + apply in_map_iff in Y. destruct Y as (m & <- & Hm). apply (Tch m Hm X).
    + exfalso. apply X, Ch. rewrite <- (Un v Y). exact Hv.
  - intros v Hv. destruct (in_dec Nat.eq_dec v mvd) as [X|X].
    + assert (Hi : ini (r_oin D x) v) by (apply I6, Mv; exact X). rewrite (proj2 (A v Hi)). apply I5; [exact Hi|apply I4, Mv; exact X].
    + apply in_app_or in Hv. destruct Hv as [Hv|Hv]; [contradiction|]. apply Sub in Hv. apply in_map_iff in Hv. destruct Hv as (m & <- & Hm). apply (Tch m Hm X).
  - intros v Hi. destruct (A v Hi) as [X1 X2]. split; [exact X1|exact X2].
  - intros v [Hi|Hi]; [left; left; exact Hi|]. destruct (B v Hi) as [X|X]; [left; right; exact X|right; apply in_or_app; right; exact X].
  - intros v Hv. rewrite (Fx2 v Hv). apply Fx. exact Hv.
Qed.

(** After a kept round: the stored blocks are the current ones again. *)
Lemma after_keep (P0 : partition) s2 l od oi oi0 (old0 : nat -> option nat) : wf_hg H -> incl l (nodes H) -> (forall v, part s2 v <> P0 v -> In v l) ->
  (forall v, ini oi0 v -> In v (nodes H) -> old0 v = P0 v) ->
  (forall v, ini oi0 v -> ini oi v /\ od v = old0 v) -> (forall v, ini oi v -> ini oi0 v \/ In v l) ->
  act_inv (part s2) (fold_left (activateNN false (part s2)) l (mkN [] (fun _ => false) (fun _ => false) (fold_left (fun od v => upd od v (part s2 v)) l od) oi)).
Proof.
  intros WF Sl Ch O0 A B. apply activate_all_inv; [exact WF|exact Sl|]. split; cbn [nx old oin inx]; [intros v []| |intros v []|split; [constructor|intros v []]].
  intros v Hi Hv. rewrite store_fold. destruct (mem v l) eqn:M; [reflexivity|]. apply mem_false in M.
  destruct (B v Hi) as [X|X]; [|contradiction]. rewrite (proj2 (A v X)), (O0 v X Hv).
  destruct (part s2 v) as [a|] eqn:E1, (P0 v) as [b|] eqn:E2; try reflexivity.
  - destruct (Nat.eq_dec a b) as [->|N]; [reflexivity|]. exfalso. apply M, Ch. congruence.
  - exfalso. apply M, Ch. congruence.
  - exfalso. apply M, Ch. congruence.
Qed.
Lemma RI_of s q z a : rd s -> q = obj (part s) -> act_inv (part s) z -> Permutation a (nx z) -> RI (mkR D s q (iof k D imb s) a (old z) (oin z)).
Proof.
  intros R Q [A B C [N _]] Pm. split; cbn [LP.r_s LP.r_q LP.r_i LP.r_act LP.r_old LP.r_oin]; [exact R|exact Q|apply iof_ok; exact R|intros v Hv; apply A; rewrite <- Pm; exact Hv|intros _; rewrite Pm; exact N|intros _; exact B|intros _ v Hv; apply C; rewrite <- Pm; exact Hv].
Qed.

Theorem lround_ok x x' b : lround x x' b -> RI x ->
  RI x' /\ (forall v, fixed v = true -> part (s_of x') v = part (s_of x) v) /\ (un = false -> wkeep (part (s_of x)) (part (s_of x'))) /\
  (b = true -> q_of x' = q_of x /\ i_of x' = i_of x /\ forall v, part (s_of x') v = part (s_of x) v) /\
  (un = true -> b = false -> (ok (part (s_of x)) -> ok (part (s_of x')) ) /\ (ok (part (s_of x')) \/ dlt (i_of x') (i_of x) = true)) /\
  (phase_mono -> un = false \/ ok (part (s_of x)) -> q_of x' <= q_of x).
Proof.
  intros R I. pose proof I as [I1 I2 I3 I4 I4' I5 I6]. pose proof I1 as [(WF & _) _]. destruct R.
  - (* constrained *)
    destruct (pg_main PG _ _ _ _ _ _ _ _ H1 I1 I4 I4') as (R1 & Ed & Ch & Mv & Fx). destruct (pg_con PG _ _ _ _ _ _ _ H1 I1 I4 I4') as [W Nx].
    cbn [LP.r_s LP.r_q LP.r_i LP.r_act LP.r_old LP.r_oin]. split; [|split; [exact Fx|split; [intros _; exact W|split; [discriminate|split; [intros X; congruence|]]]]].
    + split; cbn [LP.r_s LP.r_q LP.r_i LP.r_act LP.r_old LP.r_oin]; [exact R1|lia|apply iof_ok; exact R1|intros v Hv; apply (proj1 (Nx eq_refl)); rewrite <- H2; exact Hv|intros G; rewrite H2; apply (proj2 (Nx eq_refl)); exact G|intros X; congruence|intros X; congruence].
    + intros PM _. pose proof (PM _ _ _ _ _ _ _ _ H1 I1 I4 I4'). lia.
  - (* balanced after the moves *)
    pose proof (pg_un PG _ _ _ _ _ _ _ H1 I1 I4 I4') as ->. destruct (pg_main PG _ _ _ _ _ _ _ _ H1 I1 I4 I4') as (R1 & Ed & Ch & Mv & Fx). cbn [fresh nx inx vhe old oin] in H3.
    assert (AI : act_inv (part s1) z).
    { subst z. apply (after_keep (part (s_of x)) s1 mvd (r_old D x) (r_oin D x) (r_oin D x) (r_old D x)); auto. intros v Hv. apply I4, Mv. exact Hv. }
    cbn [LP.r_s LP.r_q LP.r_i]. split; [apply RI_of; [exact R1|lia|exact AI|exact H4]|]. split; [exact Fx|]. split; [intros X; congruence|]. split; [discriminate|].
    assert (OK1 : ok (part s1)) by (apply (isbal_ok s1 R1); exact H2). split; [intros _ _; split; [intros _; exact OK1|left; exact OK1]|].
    intros PM _. pose proof (PM _ _ _ _ _ _ _ _ H1 I1 I4 I4'). lia.
  - (* rebalanced and kept *)
    destruct (touched x s1 d1 mvd y s2 q2 ms ap od oi I H0 H1 H3 H4) as (R1 & R2 & Q2 & Sl & Ch & Od & Ai & Bi & Fx & Ey). subst y. cbn [fresh nx inx vhe old oin] in H6.
    assert (AI : act_inv (part s2) z).
    { subst z. apply (after_keep (part (s_of x)) s2 (mvd ++ ap) od oi (r_oin D x) (r_old D x)); auto. }
    cbn [LP.r_s LP.r_q LP.r_i]. split; [apply RI_of; [exact R2|exact Q2|exact AI|exact H7]|]. split; [exact Fx|]. split; [intros X; congruence|]. split; [discriminate|].
    unfold keep_new in H5. apply orb_true_iff in H5.
    assert (K2 : ok (part (s_of x)) -> ok (part s2) /\ q2 <= q_of x).
    { intros OK0. apply (isbal_ok _ I1) in OK0. rewrite OK0 in H5. cbn [negb andb] in H5. destruct H5 as [H5|H5]; [discriminate|]. apply andb_true_iff in H5. destruct H5 as [X1 X2]. split; [apply (isbal_ok _ R2); exact X2|lia]. }
    split; [|intros PM [X|X]; [congruence|apply K2; exact X]]. intros _ _. split; [intros X; apply K2; exact X|].
    destruct H5 as [H5|H5]; apply andb_true_iff in H5; destruct H5 as [X1 X2]; [right; exact X2|left; apply (isbal_ok _ R2); exact X2].
  - (* rolled back *)
    destruct (touched x s1 d1 mvd y s2 q2 ms ap od oi I H0 H1 H3 H4) as (R1 & R2 & Q2 & Sl & Ch & Od & Ai & Bi & Fx & Ey).
    destruct (RO _ _ _ _ H6 R2 Sl) as [R3 E3].
    { intros v Hv. rewrite (Od v Hv). destruct I1 as [(_ & _ & HC) K]. destruct (HC v (Sl v Hv)) as (b & Eb & Lb). exists b. split; [exact Eb|congruence]. }
    assert (EP : forall v, part s3 v = part (s_of x) v).
    { intros v. rewrite E3. destruct (mem v (mvd ++ ap)) eqn:M; [apply Od, mem_In; exact M|]. apply mem_false in M.
      destruct (part s2 v) as [a|] eqn:E1, (part (s_of x) v) as [b|] eqn:E2; try reflexivity.
      - destruct (Nat.eq_dec a b) as [->|N]; [reflexivity|]. exfalso. apply M, Ch. congruence.
      - exfalso. apply M, Ch. congruence.
      - exfalso. apply M, Ch. congruence. }
    cbn [LP.r_s LP.r_q LP.r_i]. split; [|split; [intros v _; apply EP|split; [intros X; congruence|split; [intros _; split; [reflexivity|split; [reflexivity|exact EP]]|split; [intros _ X; discriminate X|intros _ _; lia]]]]].
    split; cbn [LP.r_s LP.r_q LP.r_i LP.r_act LP.r_old LP.r_oin]; [exact R3|rewrite I2; symmetry; apply obj_same; [exact WF|exact EP]|rewrite I3; f_equal; symmetry; apply wt_same; exact EP| | | |].
    + subst y. intros v [].
    + subst y. intros _. constructor.
    + intros _ v Hi Hv. rewrite EP. destruct (Bi v Hi) as [X|X]; [rewrite (proj2 (Ai v X)); apply I5; assumption|apply Od; exact X].
    + intros _ v Hv. subst y. destruct Hv.
Qed.

Hypothesis TR : forall a b c, dlt a b = true -> dlt b c = true -> dlt a c = true.
(** The relation between the input and the output of a run. *)
Theorem lrun_ok n x x' : lrun n x x' -> RI x ->
  RI x' /\ (forall v, fixed v = true -> part (s_of x') v = part (s_of x) v) /\ (un = false -> wkeep (part (s_of x)) (part (s_of x'))) /\
  (un = true -> (ok (part (s_of x)) -> ok (part (s_of x'))) /\
     (ok (part (s_of x')) \/ dlt (i_of x') (i_of x) = true \/ forall v, part (s_of x') v = part (s_of x) v)) /\
  (phase_mono -> un = false \/ ok (part (s_of x)) -> q_of x' <= q_of x).
Proof.
  induction 1 as [n x E|n x x' b A R E|n x x' x'' A R E R' IH]; intros I.
  - split; [exact I|]. split; [auto|]. split; [intros _ b _; lia|]. split; [|intros; lia]. intros _. split; [auto|right; right; auto].
  - destruct (lround_ok x x' b R I) as (I' & F & W & St & Un & Q). split; [exact I'|]. split; [exact F|]. split; [exact W|]. split; [|exact Q].
    intros U. destruct b.
    + destruct (St eq_refl) as (_ & _ & EP). split; [|right; right; exact EP]. intros [X1 X2]. split.
      * intros b Hb. rewrite (block_weight_ext H _ (part (s_of x)) b); [apply X1; exact Hb|]. intros v _. apply EP.
      * destruct X2 as [X2|X2]; [left; exact X2|right]. erewrite filter_ext; [exact X2|]. intros b. cbn beta. rewrite (block_weight_ext H _ (part (s_of x)) b); [reflexivity|]. intros v _. apply EP.
    + destruct (Un U eq_refl) as [X1 X2]. split; [exact X1|]. tauto.
  - destruct (lround_ok x x' false R I) as (I' & F & W & St & Un & Q). destruct (IH I') as (I'' & F' & W' & Un' & Q'). split; [exact I''|].
    split; [intros v Hv; rewrite (F' v Hv); apply F; exact Hv|]. split; [|split].
    + intros U b Hb. pose proof (W U b Hb). pose proof (W' U b Hb). lia.
    + intros U. destruct (Un U eq_refl) as [X1 X2], (Un' U) as [Y1 Y2]. split; [auto|].
      destruct Y2 as [Y2|[Y2|Y2]]; [left; exact Y2| |].
      * destruct X2 as [X2|X2]; [left; apply Y1; exact X2|right; left; exact (TR _ _ _ Y2 X2)].
      * destruct X2 as [X2|X2]; [left; apply Y1; exact X2|right; left]. pose proof (ri_i _ I') as J1. pose proof (ri_i _ I'') as J2. rewrite J2, (wt_same _ _ Y2), <- J1. exact X2.
    + intros PM U. pose proof (Q PM U). assert (q_of x'' <= q_of x'); [|lia]. apply Q'; [exact PM|]. destruct U as [U|U]; [left; exact U|]. destruct un eqn:EU; [right|left; reflexivity]. apply (Un eq_refl eq_refl). exact U.
Qed.
Local Notation refine_lp := (refine_lp H k L mu un rebal thr D imb dlt small large_k removed phase rb rollb).
Theorem refine_ok maxit refine s q i s' q' i' ret : refine_lp maxit refine s q i s' q' i' ret -> incl refine (nodes H) -> good refine -> rd s -> q = obj (part s) -> i = imb (wt_of (part s)) ->
  rd s' /\ q' = obj (part s') /\ i' = imb (wt_of (part s')) /\ ret = (q' <? q) /\ (forall v, fixed v = true -> part s' v = part s v) /\
  (un = false -> wkeep (part s) (part s')) /\
  (un = true -> (ok (part s) -> ok (part s')) /\ (ok (part s') \/ dlt i' i = true \/ forall v, part s' v = part s v)) /\
  (phase_mono -> un = false \/ ok (part s) -> q' <= q).
Proof.
  intros (act & od & x' & Em & IA & R & -> & -> & -> & ->) Sub Gd RD Q Ii.
  assert (I : RI (mkR D s q i act od (fun v => mem v refine))).
  { split; cbn [LP.r_s LP.r_q LP.r_i LP.r_act LP.r_old LP.r_oin]; auto.
    - destruct refine as [|r0 rr]; cbn [init_act] in IA; destruct IA as [IA _].
      + intros v Hv. rewrite IA in Hv. apply filter_In in Hv. apply Hv.
      + subst act. exact Sub.
    - destruct refine as [|r0 rr]; cbn [init_act] in IA; destruct IA as [IA _]; [|subst act; exact Gd]. intros _. rewrite IA. apply NoDup_filter. destruct RD as [(WF & _) _]. apply (wf_nodes H WF).
    - intros U v Hi Hv. destruct refine as [|r0 rr]; cbn [init_act] in IA; destruct IA as [_ IA]; [apply IA; assumption|].
      rewrite U in Em. cbn in Em. destruct Hi as [Hi|Hi]; [congruence|]. apply IA; [exact U|]. apply mem_In. exact Hi.
    - intros U v Hv. destruct refine as [|r0 rr]; cbn [init_act] in IA; destruct IA as [IA _].
      + left. rewrite Em. apply andb_false_r.
      + right. subst act. apply mem_In. exact Hv. }
  destruct (lrun_ok _ _ _ R I) as ([J1 J2 J3 J4 J4' J5 J6] & F & W & Un & Qm). cbn [LP.r_s LP.r_q LP.r_i] in *. split; [exact J1|]. split; [exact J2|]. split; [exact J3|]. tauto.
Qed.
End G.
