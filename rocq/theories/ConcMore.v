(** ConcMore.v - balance, attributed gains, gain caches and final consistency of concurrent moves. *)
From Verif Require Import Base Spec SpecLemmas PHG PHGProofs Objective GainCache GainCacheProofs Conc ConcProofs.

(** Replay of the reported moves ([rep] is newest first). *)
Definition replay (P : partition) (r : list (mv * bool)) : partition :=
  fold_right (fun (x : mv * bool) Q => if snd x then move Q (m_u (fst x)) (m_to (fst x)) else Q) P r.

(** Effect of a micro operation on benefit entry (v,b) / penalty entry v when the block ids are [Q]. *)
Definition op_ben (o : mop) (v b : nat) : Z :=
  match o with MBen v' b' x => if Nat.eqb v v' && Nat.eqb b b' then x else 0 | _ => 0 end.
Definition op_pen (Q : partition) (o : mop) (v : nat) : Z :=
  match o with
  | MPen v' x => if Nat.eqb v v' then x else 0
  | MCondPen v' b' x => if Nat.eqb v v' && in_block Q b' v then x else 0
  | _ => 0
  end.
Definition committed (H : hypergraph) (t : tst) (b : nat) : Z :=
  match t with Added m a => if Nat.eqb b (m_to m) && (a <=? m_max m) then nw H (m_u m) else 0 | _ => 0 end.
Definition pgain (g : sync_update -> Z) (t : tst) : Z := match t with Incd _ _ su => g su | _ => 0 end.

Section More.
Variables (H : hypergraph) (k n : nat) (mops : hypergraph -> sync_update -> list mop).
Hypothesis WF : wf_hg H.

Definition pben (t : tst) (v b : nat) : Z :=
  match t with
  | Incd _ _ su => sumZ (fun o => op_ben o v b) (mops H su)
  | Delta _ _ ops => sumZ (fun o => op_ben o v b) ops
  | _ => 0
  end.
Definition ppen (Q : partition) (t : tst) (v : nat) : Z :=
  match t with
  | Incd _ _ su => sumZ (fun o => op_pen Q o v) (mops H su)
  | Delta _ _ ops => sumZ (fun o => op_pen Q o v) ops
  | _ => 0
  end.

(** The transitions, one constructor per kind of step. *)
Inductive tr (st : cst) (i : nat) : tst -> (nat -> partition) -> (nat -> partition) -> cst -> Prop :=
| tr_begin m eff st' :
    th st i = Idle -> is_free n st (m_u m) = true -> part (sh st) (m_u m) = Some (m_from m) -> m_from m <> m_to m ->
    (m_to m < pk (sh st))%nat -> In (m_u m) (nodes H) ->
    sh st' = (add_wt (sh st) (m_to m) (nw H (m_u m))) -> gc st' = gc st -> log st' = log st -> rep st' = rep st ->
    tr st i (Added m (wt (sh st) (m_to m) + nw H (m_u m))) eff eff st'
| tr_accept m a eff st' :
    th st i = Added m a -> a <= m_max m ->
    sh st' = (set_part (sh st) (m_u m) (m_to m)) -> gc st' = gc st -> log st' = log st -> rep st' = rep st ->
    tr st i (Stored m) eff eff st'
| tr_reject m a eff st' :
    th st i = Added m a -> m_max m < a ->
    sh st' = add_wt (sh st) (m_to m) (- nw H (m_u m)) -> gc st' = gc st -> log st' = log st -> rep st' = (m, false) :: rep st ->
   
    tr st i Idle eff eff st'
| tr_sub m eff st' :
    th st i = Stored m ->
    sh st' = (add_wt (sh st) (m_from m) (- nw H (m_u m))) -> gc st' = gc st -> log st' = log st -> rep st' = rep st ->
    tr st i (Edges m (inc H (m_u m))) eff eff st'
| tr_done m eff st' :
    th st i = Edges m [] ->
    sh st' = sh st -> gc st' = gc st -> log st' = log st -> rep st' = (m, true) :: rep st ->
    tr st i Idle eff eff st'
| tr_lock m e rem eff st' :
    th st i = Edges m (e :: rem) ->
    sh st' = sh st -> gc st' = gc st -> log st' = log st -> rep st' = rep st ->
    tr st i (Locked m e rem) eff eff st'
| tr_dec m e rem eff s' fa st' :
    th st i = Locked m e rem -> part s' = part (sh st) ->
    sh st' = s' -> gc st' = gc st -> log st' = log st -> rep st' = rep st ->
    tr st i (Dec m e rem fa) eff eff st'
| tr_inc m e rem fa eff s' ta st' :
    th st i = Dec m e rem fa -> part s' = part (sh st) -> ta = pc (sh st) e (m_to m) + 1 ->
    let su := mkSync e (m_from m) (m_to m) (ew H e) (Z.of_nat (length (pins H e))) fa ta in
    sh st' = s' -> gc st' = gc st -> log st' = log st -> rep st' = rep st ->
    tr st i (Incd m rem su) eff (upd eff e (move (eff e) (m_u m) (m_to m))) st'
| tr_unlock m rem su eff st' :
    th st i = Incd m rem su ->
    sh st' = sh st -> gc st' = gc st -> log st' = su :: log st -> rep st' = rep st ->
    tr st i (Delta m rem (mops H su)) eff eff st'
| tr_delta_end m rem eff st' :
    th st i = Delta m rem [] -> sh st' = sh st -> gc st' = gc st -> log st' = log st -> rep st' = rep st ->
    tr st i (Edges m rem) eff eff st'
| tr_delta m rem o ops c' ops' eff st' :
    th st i = Delta m rem (o :: ops) -> exec_mop (part (sh st)) (gc st) o ops = (c', ops') ->
    sh st' = sh st -> gc st' = c' -> log st' = log st -> rep st' = rep st ->
    tr st i (Delta m rem ops') eff eff st'.

Lemma step_tr st l st' eff : cstep H n mops st l = Some st' ->
  exists i t, (i < n)%nat /\ th st' = upd (th st) i t /\ tr st i t eff (eff_next st l eff) st'.
Proof using Type.
  intros Hs. destruct l as [i m|i]; simpl in Hs.
  - destruct (th st i) eqn:Et; try discriminate.
    destruct (_ && _) eqn:Eg in Hs; [|discriminate]. injection Hs as <-.
    repeat (apply andb_true_iff in Eg; destruct Eg as [Eg ?]).
    apply Nat.ltb_lt in Eg. rename Eg into Hi.
    match goal with X : in_block _ _ _ = true |- _ => apply in_block_true in X end.
    match goal with X : negb _ = true |- _ => apply negb_true_iff, Nat.eqb_neq in X end.
    match goal with X : (_ <? _)%nat = true |- _ => apply Nat.ltb_lt in X end.
    match goal with X : mem _ _ = true |- _ => apply mem_In in X end.
    exists i, (Added m (wt (sh st) (m_to m) + nw H (m_u m))). split; [exact Hi|]. rewrite upd_same. split; [reflexivity|].
    apply tr_begin; auto.
  - destruct (i <? n)%nat eqn:Hi0; [|discriminate]. apply Nat.ltb_lt in Hi0. rename Hi0 into Hi.
    unfold adv in Hs. unfold eff_next. destruct (th st i) as [|m a|m|m rem|m e rem|m e rem fa|m rem su|m rem ops] eqn:Et; try discriminate.
    + destruct (Z.leb_spec a (m_max m)); injection Hs as <-.
      * exists i, (Stored m). split; [exact Hi|]. split; [reflexivity|]. eapply tr_accept; eauto; reflexivity.
      * exists i, Idle. split; [exact Hi|]. split; [reflexivity|]. eapply tr_reject; eauto; reflexivity.
    + injection Hs as <-. eexists i, _. split; [exact Hi|]. split; [reflexivity|]. eapply tr_sub; eauto; reflexivity.
    + destruct rem as [|e rem].
      * injection Hs as <-. exists i, Idle. split; [exact Hi|]. split; [reflexivity|]. eapply tr_done; eauto; reflexivity.
      * destruct (lk st e) eqn:El; [discriminate|]. injection Hs as <-. eexists i, _. split; [exact Hi|]. split; [reflexivity|].
        eapply tr_lock; eauto; reflexivity.
    + unfold decrementPinCountOfBlock in Hs. destruct (_ && _) in Hs; [|discriminate]. injection Hs as <-.
      eexists i, _. split; [exact Hi|]. split; [reflexivity|]. eapply tr_dec; [exact Et| |reflexivity..]. destruct (_ =? _); reflexivity.
    + unfold incrementPinCountOfBlock in Hs. destruct (_ <? _)%nat in Hs; [|discriminate]. injection Hs as <-.
      eexists i, _. split; [exact Hi|]. split; [reflexivity|]. eapply tr_inc; [exact Et| |reflexivity..]. destruct (_ =? _); reflexivity.
    + injection Hs as <-. eexists i, _. split; [exact Hi|]. split; [reflexivity|]. eapply tr_unlock; eauto; reflexivity.
    + destruct ops as [|o ops].
      * injection Hs as <-. eexists i, _. split; [exact Hi|]. split; [reflexivity|]. eapply tr_delta_end; eauto; reflexivity.
      * destruct (exec_mop (part (sh st)) (gc st) o ops) as [c' ops'] eqn:Ex. injection Hs as <-.
        eexists i, _. split; [exact Hi|]. split; [reflexivity|]. eapply tr_delta; eauto; reflexivity.
Qed.

Lemma sum_th st st' i t (F : tst -> Z) : (i < n)%nat -> th st' = upd (th st) i t ->
  sumZ (fun j => F (th st' j)) (seq 0 n) = sumZ (fun j => F (th st j)) (seq 0 n) + F t - F (th st i).
Proof using Type. intros Hi ->. apply sum_upd. exact Hi. Qed.

(** ---------- final block ids: replay of the accepted moves ---------- *)
Definition inflight (st : cst) (v : nat) : Prop :=
  exists i m, (i < n)%nat /\ mv_of (th st i) = Some m /\ stored (th st i) = true /\ m_u m = v.
Definition ReplayInv (P0 : partition) (st : cst) : Prop :=
  forall v, ~ inflight st v -> part (sh st) v = replay P0 (rep st) v.

Lemma inflight_same st st' i t v : (i < n)%nat -> th st' = upd (th st) i t ->
  mv_of t = mv_of (th st i) -> stored t = stored (th st i) -> inflight st v -> inflight st' v.
Proof.
  intros Hi E E1 E2 (j & m & Hj & A & B & C). exists j, m. rewrite E. unfold upd.
  destruct (Nat.eqb_spec j i) as [->|]; [rewrite E1, E2|]; tauto.
Qed.

Lemma replay_step P0 st l st' eff : Base H k n st eff -> ReplayInv P0 st -> cstep H n mops st l = Some st' -> ReplayInv P0 st'.
Proof using Type.
  intros B R Hs v Hv. destruct (step_tr st l st' eff Hs) as (i & t & Hi & Et & T).
  assert (Same : mv_of t = mv_of (th st i) -> stored t = stored (th st i) -> ~ inflight st v).
  { intros E1 E2 X. apply Hv. eapply inflight_same; eauto. }
  destruct T; simpl; try (rewrite H1 in *); simpl in *;
    try (match goal with E : sh _ = _ |- _ => rewrite E end);
    try (match goal with E : rep _ = _ |- _ => rewrite E end); simpl.
  - apply R. intros (j & m0 & Hj & A & B0 & C). apply Hv. exists j, m0. rewrite Et. unfold upd.
    destruct (Nat.eqb_spec j i) as [->|]; [rewrite H0 in B0; discriminate|tauto].
  - rewrite upd_other.
    + apply R. intros (j & m0 & Hj & A & B0 & C). apply Hv. exists j, m0. rewrite Et. unfold upd.
      destruct (Nat.eqb_spec j i) as [->|]; [rewrite H0 in B0; discriminate|tauto].
    + intros ->. apply Hv. exists i, m. rewrite Et, upd_same. simpl. tauto.
  - apply R. intros (j & m0 & Hj & A & B0 & C). apply Hv. exists j, m0. rewrite Et. unfold upd.
    destruct (Nat.eqb_spec j i) as [->|]; [rewrite H0 in B0; discriminate|tauto].
  - apply R, Same; rewrite H0; reflexivity.
  - (* done *)
    destruct (Nat.eq_dec v (m_u m)) as [->|Hn].
    + unfold move. rewrite upd_same.
      assert (Em : mv_of (th st i) = Some m) by (rewrite H0; reflexivity).
      rewrite (b_cur H k n st eff B i m Hi Em), H0. reflexivity.
    + unfold move. rewrite upd_other by exact Hn. apply R. intros (j & m0 & Hj & A & B0 & C). apply Hv. exists j, m0.
      rewrite Et. unfold upd. destruct (Nat.eqb_spec j i) as [->|]; [|tauto]. rewrite H0 in A. injection A as <-. congruence.
  - apply R, Same; rewrite H0; reflexivity.
  - rewrite H1. apply R, Same; rewrite H0; reflexivity.
  - rewrite H1. apply R, Same; rewrite H0; reflexivity.
  - apply R, Same; rewrite H0; reflexivity.
  - apply R, Same; rewrite H0; reflexivity.
  - apply R, Same; rewrite H0; reflexivity.
Qed.

(** ---------- balance ---------- *)
Variable L : nat -> Z.
Hypothesis Hnw : forall v, In v (nodes H) -> 0 <= nw H v.
Definition label_ok (l : label) : Prop := match l with Begin _ m => m_max m <= L (m_to m) | Adv _ => True end.
Definition BalInv (P0 : partition) (st : cst) : Prop :=
  (forall i m, (i < n)%nat -> mv_of (th st i) = Some m -> m_max m <= L (m_to m)) /\
  (forall b, (b < k)%nat -> block_weight H (part (sh st)) b + sumZ (fun i => committed H (th st i) b) (seq 0 n)
               <= Z.max (L b) (block_weight H P0 b)).

Lemma committed_le st eff b i : Base H k n st eff -> (i < n)%nat -> committed H (th st i) b <= cwt H (th st i) b.
Proof using Hnw L mops.
  intros B Hi. destruct (th st i) as [|m a|m| | | | |] eqn:E; simpl; try lia.
  - assert (Em : mv_of (th st i) = Some m) by (rewrite E; reflexivity).
    destruct (b_mv H k n st eff B i m Hi Em) as (M & _). specialize (Hnw _ M).
    destruct (Nat.eqb b (m_to m)), (a <=? m_max m); simpl; lia.
  - assert (Em : mv_of (th st i) = Some m) by (rewrite E; reflexivity).
    destruct (b_mv H k n st eff B i m Hi Em) as (M & _). specialize (Hnw _ M). destruct (Nat.eqb b (m_from m)); lia.
Qed.

Lemma bal_step P0 st l st' eff : Base H k n st eff -> BalInv P0 st -> label_ok l ->
  cstep H n mops st l = Some st' -> BalInv P0 st'.
Proof using WF Hnw L mops.
  intros B [R1 R2] Hl Hs. destruct (step_tr st l st' eff Hs) as (i & t & Hi & Et & T).
  assert (X1 : forall m, mv_of t = Some m -> m_max m <= L (m_to m)).
  { intros m Em. destruct T; simpl in Em; try discriminate; injection Em as ->;
      try (eapply R1; [exact Hi|rewrite H0; reflexivity]).
    destruct l as [i' m'|i']; simpl in Hl, Hs.
    - destruct (th st i'); try discriminate. destruct (_ && _) in Hs; [|discriminate]. injection Hs as <-.
      assert (Q : upd (th st) i' (Added m' (upd (wt (sh st)) (m_to m') (wt (sh st) (m_to m') + nw H (m_u m')) (m_to m'))) i =
                  upd (th st) i (Added m (wt (sh st) (m_to m) + nw H (m_u m))) i) by (rewrite <- Et; reflexivity).
      rewrite !upd_same in Q. destruct (Nat.eq_dec i i') as [->|Hii].
      + rewrite upd_same in Q. assert (m' = m) by congruence. subst m'. exact Hl.
      + rewrite upd_other in Q by exact Hii. congruence.
    - exfalso. destruct (i' <? n)%nat; [|discriminate]. unfold adv in Hs.
      assert (Hi' : th st i' = th st i \/ th st i' <> th st i) by (destruct (Nat.eq_dec i i') as [->|]; [tauto|]; right; intros Q;
        rewrite Q, H0 in Hs; discriminate).
      destruct Hi' as [Q|Q]; [rewrite Q, H0 in Hs; discriminate|].
      assert (Ti : th st' i = Added m (wt (sh st) (m_to m) + nw H (m_u m))) by (rewrite Et, upd_same; reflexivity).
      assert (Tn : i <> i') by congruence.
      assert (Ti2 : th st' i = th st i).
      { destruct (th st i') as [|m1 a|m1|m1 rem|m1 e rem|m1 e rem fa|m1 rem su|m1 rem ops] eqn:Ei; try discriminate.
        - destruct (a <=? m_max m1); injection Hs as Hs; rewrite <- Hs; simpl; apply upd_other; exact Tn.
        - injection Hs as Hs; rewrite <- Hs; simpl; apply upd_other; exact Tn.
        - destruct rem; [injection Hs as Hs; rewrite <- Hs; simpl; apply upd_other; exact Tn|].
          destruct (lk st _); [discriminate|]. injection Hs as Hs; rewrite <- Hs; simpl; apply upd_other; exact Tn.
        - destruct (decrementPinCountOfBlock _ _ _) as [[? ?]|]; [|discriminate]. injection Hs as Hs; rewrite <- Hs; simpl; apply upd_other; exact Tn.
        - destruct (incrementPinCountOfBlock _ _ _) as [[? ?]|]; [|discriminate]. injection Hs as Hs; rewrite <- Hs; simpl; apply upd_other; exact Tn.
        - injection Hs as Hs; rewrite <- Hs; simpl; apply upd_other; exact Tn.
        - destruct ops; [injection Hs as Hs; rewrite <- Hs; simpl; apply upd_other; exact Tn|].
          destruct (exec_mop _ _ _ _). injection Hs as Hs; rewrite <- Hs; simpl; apply upd_other; exact Tn. }
      rewrite Ti2, H0 in Ti. discriminate. }
  split.
  - intros j m Hj. rewrite Et. unfold upd. destruct (Nat.eqb_spec j i) as [->|]; [apply X1|apply R1; exact Hj].
  - intros b Hb. rewrite (sum_th st st' i t (fun x => committed H x b) Hi Et). specialize (R2 b Hb).
    destruct T; rewrite H0; simpl;
      try (match goal with E : sh _ = _ |- _ => rewrite E end); simpl;
      try (match goal with E : part _ = part _ |- _ => rewrite E end); try lia.
    + (* begin *)
      destruct (Nat.eqb_spec b (m_to m)) as [->|Hn]; simpl; [|lia].
      destruct (Z.leb_spec (wt (sh st) (m_to m) + nw H (m_u m)) (m_max m)) as [Hle|]; [|lia].
      rewrite (b_wt H k n st eff B (m_to m) Hb) in Hle.
      assert (Q : sumZ (fun j => committed H (th st j) (m_to m)) (seq 0 n) <= sumZ (fun j => cwt H (th st j) (m_to m)) (seq 0 n)).
      { apply sumZ_le. intros j Hj. apply in_seq in Hj. eapply committed_le; eauto. lia. }
      specialize (X1 m eq_refl). lia.
    + (* accept *)
      assert (Em : mv_of (th st i) = Some m) by (rewrite H0; reflexivity).
      destruct (b_mv H k n st eff B i m Hi Em) as (M1 & M2 & M3 & M4). pose proof (Hnw _ M1) as Hw.
      pose proof (b_cur H k n st eff B i m Hi Em) as Hp. rewrite H0 in Hp. simpl in Hp.
      fold (move (part (sh st)) (m_u m) (m_to m)).
      rewrite block_weight_move by (try apply WF; assumption). unfold in_block. rewrite Hp.
      replace (a <=? m_max m) with true by lia.
      rewrite (Nat.eqb_sym (m_to m) b), (Nat.eqb_sym (m_from m) b).
      destruct (Nat.eqb b (m_to m)), (Nat.eqb b (m_from m)); simpl; lia.
    + destruct (Nat.eqb b (m_to m) && (a <=? m_max m)) eqn:Ex; [|lia].
      apply andb_true_iff in Ex. lia.
Qed.

(** ---------- attributed gains ---------- *)
Variables (g : sync_update -> Z) (f : hypergraph -> partition -> nat -> Z).
Hypothesis Hg : forall P u from to e,
  NoDup (pins H e) -> In u (pins H e) -> P u = Some from -> from <> to -> (to < k)%nat -> pins_assigned H P k e ->
  g (mkSync e from to (ew H e) (esize H e) (pin_count H P e from - 1) (pin_count H P e to + 1)) = f H (move P u to) e - f H P e.
Definition GainInv (P0 : partition) (st : cst) (eff : nat -> partition) : Prop :=
  sumZ g (log st) + sumZ (fun i => pgain g (th st i)) (seq 0 n) =
  sumZ (fun e => f H (eff e) e) (edges H) - sumZ (f H P0) (edges H).

(** Facts available at the increment step. *)
Lemma inc_facts st eff i m e rem fa : Base H k n st eff -> (i < n)%nat -> th st i = Dec m e rem fa ->
  In e (edges H) /\ In (m_u m) (pins H e) /\ In (m_u m) (nodes H) /\ eff e (m_u m) = Some (m_from m) /\ m_from m <> m_to m /\
  (m_to m < k)%nat /\ pins_assigned H (eff e) k e /\ fa = pin_count H (eff e) e (m_from m) - 1 /\
  pc (sh st) e (m_to m) = pin_count H (eff e) e (m_to m).
Proof using WF mops.
  clear Hg g f Hnw L.
  intros B Hi Et.
  assert (Hm : mv_of (th st i) = Some m) by (rewrite Et; reflexivity).
  destruct (b_mv H k n st eff B i m Hi Hm) as (M1 & M2 & M3 & M4).
  destruct (b_pend H k n st eff B i m Hi Hm) as [Pn Pi]. rewrite Et in Pn, Pi. simpl in Pn, Pi.
  assert (He : In e (edges H) /\ In (m_u m) (pins H e)) by (apply (wf_inc H WF _ e M1), Pi; left; reflexivity).
  destruct He as [He Hpin].
  assert (Hhold : holds (th st i) = Some e) by (rewrite Et; reflexivity).
  assert (Heu : eff e (m_u m) = Some (m_from m)) by (eapply b_eff1; eauto; rewrite Et; left; reflexivity).
  pose proof (b_fa H k n st eff B i Hi) as F. rewrite Et in F. simpl in F.
  repeat split; auto.
  - eapply eff_assigned; eauto.
  - rewrite (b_pc H k n st eff B e _ He M3), (sum_half_one H k n mops st eff i e _ B Hi Hhold), Et. simpl.
    rewrite Nat.eqb_refl. replace (Nat.eqb (m_to m) (m_from m)) with false by lia. simpl. lia.
Qed.

Lemma gain_step P0 st l st' eff : Base H k n st eff -> GainInv P0 st eff ->
  cstep H n mops st l = Some st' -> GainInv P0 st' (eff_next st l eff).
Proof using WF Hg.
  clear Hnw L.
  intros B R Hs. destruct (step_tr st l st' eff Hs) as (i & t & Hi & Et & T). unfold GainInv in *.
  rewrite (sum_th st st' i t (pgain g) Hi Et).
  remember (eff_next st l eff) as effn. clear Heqeffn.
  destruct T; rewrite H0; simpl;
      try (match goal with E : log _ = _ |- _ => rewrite E end); simpl; try lia.
  (* increment *)
  destruct (inc_facts st eff i m e rem fa B Hi H0) as (F1 & F2 & F3 & F4 & F5 & F6 & F7 & F8 & F9).
  pose proof (Hg (eff e) (m_u m) (m_from m) (m_to m) e (wf_pins_nodup H WF e F1) F2 F4 F5 F6 F7) as G.
  unfold esize in G. unfold su. rewrite H2, F8, F9. rewrite G.
  rewrite (sumZ_change1 (fun e0 => f H (upd eff e (move (eff e) (m_u m) (m_to m)) e0) e0) (fun e0 => f H (eff e0) e0) (edges H) e (wf_edges H WF)).
  - fold (mem e (edges H)). replace (mem e (edges H)) with true by (symmetry; apply mem_In; exact F1). rewrite upd_same. lia.
  - intros x _ Hx. rewrite upd_other by exact Hx. reflexivity.
Qed.

(** ---------- gain cache ---------- *)
Variables (pt bt : Z -> Z -> Z) (all : bool).
Hypothesis Hben : forall P u from to e v b,
  NoDup (pins H e) -> In u (pins H e) -> P u = Some from -> from <> to -> (to < k)%nat -> pins_assigned H P k e ->
  sumZ (fun o => op_ben o v b) (mops H (mkSync e from to (ew H e) (esize H e) (pin_count H P e from - 1) (pin_count H P e to + 1))) =
  if mem v (pins H e) then ew H e * (bt (esize H e) (pin_count H (move P u to) e b) - bt (esize H e) (pin_count H P e b)) else 0.
Hypothesis Hpen : forall P Q u from to e v,
  NoDup (pins H e) -> In u (pins H e) -> P u = Some from -> from <> to -> (to < k)%nat -> pins_assigned H P k e ->
  In v (pins H e) -> (v <> u /\ Q v = P v \/ all = true) ->
  sumZ (fun o => op_pen Q o v) (mops H (mkSync e from to (ew H e) (esize H e) (pin_count H P e from - 1) (pin_count H P e to + 1))) =
  ew H e * (pt (esize H e) (pin_count H (move P u to) e (blk (move P u to) v)) - pt (esize H e) (pin_count H P e (blk P v))).
Hypothesis Hpen0 : forall Q su v, ~ In v (pins H (su_he su)) -> sumZ (fun o => op_pen Q o v) (mops H su) = 0.
Hypothesis Hall : all = true -> forall su o, In o (mops H su) -> match o with MCondPen _ _ _ => False | _ => True end.

Definition BenInv (st : cst) (eff : nat -> partition) : Prop :=
  forall v b, In v (nodes H) -> (b < k)%nat ->
    ben (gc st) v b + sumZ (fun i => pben (th st i) v b) (seq 0 n) =
    sumZ (fun e => ew H e * bt (esize H e) (pin_count H (eff e) e b)) (inc H v).

Definition untouched (st : cst) (v : nat) : Prop := ~ inflight st v /\ forall m, In (m, true) (rep st) -> m_u m <> v.
Definition PenInv (P0 : partition) (st : cst) (eff : nat -> partition) : Prop :=
  (all = true -> forall i m rem ops, (i < n)%nat -> th st i = Delta m rem ops ->
      forall o, In o ops -> match o with MCondPen _ _ _ => False | _ => True end) /\
  (forall v, In v (nodes H) -> untouched st v \/ all = true ->
    pen (gc st) v + sumZ (fun i => ppen P0 (th st i) v) (seq 0 n) =
    sumZ (fun e => ew H e * pt (esize H e) (pin_count H (eff e) e (blk (eff e) v))) (inc H v)).

Lemma ben_step st l st' eff : Base H k n st eff -> BenInv st eff ->
  cstep H n mops st l = Some st' -> BenInv st' (eff_next st l eff).
Proof using WF Hben.
  clear Hall Hpen Hpen0 Hg g f Hnw L pt all.
  intros B R Hs v b Hv Hb. destruct (step_tr st l st' eff Hs) as (i & t & Hi & Et & T). specialize (R v b Hv Hb).
  rewrite (sum_th st st' i t (fun x => pben x v b) Hi Et).
  remember (eff_next st l eff) as effn. clear Heqeffn.
  destruct T; rewrite H0; simpl;
      try (match goal with E : gc _ = _ |- _ => rewrite E end); simpl; try lia.
  - destruct (inc_facts st eff i m e rem fa B Hi H0) as (F1 & F2 & F3 & F4 & F5 & F6 & F7 & F8 & F9).
    unfold su. rewrite H2, F8, F9. pose proof (Hben (eff e) (m_u m) (m_from m) (m_to m) e v b (wf_pins_nodup H WF e F1) F2 F4 F5 F6 F7) as G.
    unfold esize at 1 in G. rewrite G.
    rewrite (sumZ_change1 (fun e0 => ew H e0 * bt (esize H e0) (pin_count H (upd eff e (move (eff e) (m_u m) (m_to m)) e0) e0 b))
                          (fun e0 => ew H e0 * bt (esize H e0) (pin_count H (eff e0) e0 b)) (inc H v) e (wf_inc_nodup H WF v Hv)).
    + fold (mem e (inc H v)). rewrite (mem_inc_pins H WF v e Hv F1). rewrite upd_same. destruct (mem v (pins H e)); lia.
    + intros x _ Hx. rewrite upd_other by exact Hx. reflexivity.
  - destruct o as [v' b' x|v' x|v' b' x]; simpl in H1; injection H1 as <- <-; simpl.
    + rewrite upd2_eq. destruct (Nat.eqb_spec v v') as [->|]; simpl; [|lia]. destruct (Nat.eqb_spec b b') as [->|]; simpl; lia.
    + lia.
    + destruct (in_block _ _ _); simpl; lia.
Qed.

Lemma untouched_back st l st' eff v : Base H k n st eff -> cstep H n mops st l = Some st' -> untouched st' v -> untouched st v.
Proof using Type.
  clear Hben Hpen Hpen0 Hall Hg g f Hnw L bt pt all.
  intros B Hs [U1 U2]. destruct (step_tr st l st' eff Hs) as (i & t & Hi & Et & T).
  assert (Hrep : forall m, In (m, true) (rep st) -> In (m, true) (rep st')).
  { intros m Hm. destruct T; simpl; try exact Hm;
      try (match goal with E : rep _ = _ |- _ => rewrite E end); simpl; tauto. }
  split; [|intros m Hm; apply U2, Hrep; exact Hm].
  intros (j & m0 & Hj & A & B0 & C).
  destruct (Nat.eq_dec j i) as [->|Hn].
  2: { apply U1. exists j, m0. rewrite Et, upd_other by exact Hn. tauto. }
  assert (Q : (mv_of t = Some m0 /\ stored t = true) \/ In (m0, true) (rep st')).
  { destruct T; rewrite H0 in A, B0; simpl in A, B0; try discriminate; injection A as <-; try (left; simpl; tauto).
    right. rewrite H4. left. reflexivity. }
  destruct Q as [[Q1 Q2]|Q].
  - apply U1. exists i, m0. rewrite Et, upd_same. tauto.
  - exact (U2 m0 Q C).
Qed.

Lemma untouched_part P0 st v : ReplayInv P0 st -> untouched st v -> part (sh st) v = P0 v.
Proof using Type.
  clear Hben Hpen Hpen0 Hall Hg g f Hnw L bt pt all.
  intros R [U1 U2]. rewrite (R v U1).
  assert (X : forall r, (forall m, In (m, true) r -> m_u m <> v) -> replay P0 r v = P0 v).
  { induction r as [|[m [|]] r IH]; intros Hr; simpl; [reflexivity| |].
    - unfold move. rewrite upd_other; [|apply not_eq_sym, Hr; left; reflexivity]. apply IH. intros m' Hm'. apply Hr. right; exact Hm'.
    - apply IH. intros m' Hm'. apply Hr. right; exact Hm'. }
  apply X. exact U2.
Qed.
Lemma untouched_eff P0 st eff v e : Base H k n st eff -> ReplayInv P0 st -> untouched st v -> In e (edges H) -> In v (pins H e) ->
  eff e v = P0 v.
Proof using Type.
  clear Hben Hpen Hpen0 Hall Hg g f Hnw L bt pt all.
  intros B R U He Hv. rewrite (b_eff2 H k n st eff B e v He Hv); [apply untouched_part; assumption|].
  intros i m Hi Em Hu Hin. destruct U as [U1 _]. apply U1. exists i, m.
  split; [exact Hi|]. split; [exact Em|]. split; [|exact Hu].
  destruct (th st i); simpl in *; try reflexivity; destruct Hin.
Qed.

Lemma pen_step P0 st l st' eff : Base H k n st eff -> ReplayInv P0 st -> PenInv P0 st eff ->
  cstep H n mops st l = Some st' -> PenInv P0 st' (eff_next st l eff).
Proof using WF Hpen Hpen0 Hall.
  clear Hben Hg g f Hnw L bt.
  intros B Rep [R1 R] Hs. pose proof (step_tr st l st' eff Hs) as (i & t & Hi & Et & T). split.
  - intros Ha j m rem ops Hj Ej. rewrite Et in Ej. unfold upd in Ej.
    destruct (Nat.eqb_spec j i) as [->|]; [|eapply R1; eauto]. subst t. revert Ha.
    inversion T; subst; intros Ha.
    + apply Hall. exact Ha.
    + intros o' Ho'. pose proof (R1 Ha i m rem _ Hi H3) as R1'.
      destruct o; simpl in H4; injection H4 as _ <-.
      * apply R1'. right. exact Ho'.
      * apply R1'. right. exact Ho'.
      * exfalso. apply (R1' _ (or_introl eq_refl)).
  - intros v Hv HU.
    assert (HU0 : untouched st v \/ all = true) by (destruct HU as [U|U]; [left; eapply untouched_back; eauto|tauto]).
    specialize (R v Hv HU0).
    rewrite (sum_th st st' i t (fun x => ppen P0 x v) Hi Et).
    remember (eff_next st l eff) as effn. clear Heqeffn.
    destruct T; rewrite H0; simpl;
      try (match goal with E : gc _ = _ |- _ => rewrite E end); simpl; try lia.
    + destruct (inc_facts st eff i m e rem fa B Hi H0) as (F1 & F2 & F3 & F4 & F5 & F6 & F7 & F8 & F9).
      unfold su. rewrite H2, F8, F9.
      rewrite (sumZ_change1 (fun e0 => ew H e0 * pt (esize H e0) (pin_count H (upd eff e (move (eff e) (m_u m) (m_to m)) e0) e0
                                          (blk (upd eff e (move (eff e) (m_u m) (m_to m)) e0) v)))
                          (fun e0 => ew H e0 * pt (esize H e0) (pin_count H (eff e0) e0 (blk (eff e0) v))) (inc H v) e (wf_inc_nodup H WF v Hv)).
      2: { intros x _ Hx. rewrite upd_other by exact Hx. reflexivity. }
      fold (mem e (inc H v)). rewrite (mem_inc_pins H WF v e Hv F1). rewrite upd_same.
      destruct (mem_spec v (pins H e)) as [Hin|Hin].
      * fold (esize H e). rewrite (Hpen (eff e) P0 (m_u m) (m_from m) (m_to m) e v (wf_pins_nodup H WF e F1) F2 F4 F5 F6 F7 Hin); [lia|].
        destruct HU0 as [U|U]; [left|tauto]. split.
        -- intros ->. destruct U as [U _]. apply U. exists i, m. rewrite H0. simpl. tauto.
        -- symmetry. eapply untouched_eff; eauto.
      * rewrite Hpen0 by exact Hin. lia.
    + destruct o as [v' b' x|v' x|v' b' x]; simpl in H1; injection H1 as <- <-; simpl.
      * lia.
      * unfold upd. destruct (Nat.eqb_spec v v') as [->|]; simpl; lia.
      * destruct (Nat.eqb_spec v v') as [->|]; simpl.
        -- destruct HU0 as [U|U].
           ++ unfold in_block. rewrite (untouched_part P0 st v' Rep U).
              destruct (P0 v') as [c|]; simpl; [destruct (Nat.eqb c b')|]; simpl; rewrite ?Nat.eqb_refl; lia.
           ++ exfalso. apply (R1 U i m rem _ Hi H0 (MCondPen v' b' x)). left. reflexivity.
        -- destruct (in_block (part (sh st)) b' v'); simpl; [replace (Nat.eqb v v') with false by lia|]; lia.
Qed.
End More.
