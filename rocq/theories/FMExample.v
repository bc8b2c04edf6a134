(** FMExample.v - a concrete round of k-way FM (C74): two searches run concurrently and apply one improving and one worsening move. *)
From Verif Require Import Base Spec SpecLemmas WfCheck PHG PHGProofs Objective GainCache GainCacheProofs Metrics Conc ConcProofs ConcMore ConcRun PropsA Rollback RollbackProofs Scan Revert SeqRollback.
From Verif Require Import LP LPPool LPPoolThms FMRound Interleave Rebalance RebalanceThms FMRefine FMThms DetLPProps.
From Verif Require Tracker UncRound.

(** Executable steps of the machine of FMRound.v (only some of them; used to run examples). *)
Inductive xl := XSearch (t : nat) | XLoad (t u : nat) | XCas (t : nat) | XRead (t u : nat) | XPop (t u c : nat) | XBegin (t : nat) | XAdv (t : nat) | XFetch (t : nat)
 | XOrder (t : nat) | XOfnode (t : nat) | XStop (t : nat) | XEnd (t : nat).
Section X.
Variables (H : hypergraph) (k n : nat) (mops : hypergraph -> sync_update -> list mop) (N : nat) (T : Z) (fixed : nat -> bool).
Definition retrack (st : fmst) (ev : list Tracker.event) (T' : Tracker.st) : fmst :=
  mkF T' (ev ++ f_log st) (f_p st) (f_blk st) (fun t => match Tracker.tpc (Tracker.th T' t) with Tracker.Idle => [] | _ => f_lm st t end) (f_ins st).
Definition free_call (st : fmst) (t : nat) : bool := match p_pc (f_p st) t with TIdle => true | _ => false end.
Definition jx (st : fmst) (l : xl) : option fmst :=
  let s := f_t st in
  match l with
  | XSearch t => match Tracker.tpc (Tracker.th s t) with Tracker.Idle => if Tracker.inround s && (Tracker.nsearch s <? Tracker.req s + T) && free_call st t then
      Some (retrack st [] (let x := Tracker.wrap MAXID (Tracker.high s + 1) in Tracker.mkSt (Tracker.son s) (Tracker.rel s) (Tracker.deact s) x (Tracker.first s) (Tracker.running s) (Tracker.order s) (Tracker.ofnode s)
                    (upd (Tracker.th s) t (Tracker.mkTh x [] [] Tracker.Run)) (Tracker.inround s) (Tracker.req s) (Tracker.nsearch s + 1))) else None | _ => None end
  | XLoad t u => match Tracker.tpc (Tracker.th s t) with Tracker.Run => if (u <? N)%nat && mem u (nodes H) && negb (fixed u) && free_call st t && Tracker.inround s then
      Some (retrack st [] (Tracker.setTh s t (Tracker.withPc (Tracker.th s t) (if Tracker.isSearchInactive s (Tracker.son s u) then Tracker.Loaded u (Tracker.son s u) else Tracker.Run)))) else None | _ => None end
  | XCas t => match Tracker.tpc (Tracker.th s t) with Tracker.Loaded u v => if (Tracker.son s u =? v) && free_call st t && Tracker.inround s then
      Some (retrack st [Tracker.EAcq t (Tracker.sid (Tracker.th s t)) u] (Tracker.setTh (Tracker.setSon s u (Tracker.sid (Tracker.th s t))) t (Tracker.mkTh (Tracker.sid (Tracker.th s t)) (u :: Tracker.pq (Tracker.th s t)) (Tracker.mvs (Tracker.th s t)) Tracker.Run))) else None | _ => None end
  | XRead t u => if mem u (Tracker.pq (Tracker.th s t)) then match part (sh (p_c (f_p st))) u with Some b => Some (mkF s (f_log st) (f_p st) (upd (f_blk st) u (Some b)) (f_lm st) (f_ins st)) | None => None end else None
  | XPop t u c => match Tracker.tpc (Tracker.th s t), f_blk st u with Tracker.Run, Some b => if mem u (Tracker.pq (Tracker.th s t)) && free_call st t && negb (Nat.eqb b c) && (c <? k)%nat then
      Some (mkF (Tracker.setTh (Tracker.setSon s u (Tracker.deact s)) t (Tracker.mkTh (Tracker.sid (Tracker.th s t)) (Tracker.rmv u (Tracker.pq (Tracker.th s t))) (u :: Tracker.mvs (Tracker.th s t)) Tracker.Run))
        (Tracker.EDeact t (Tracker.sid (Tracker.th s t)) u :: f_log st) (f_p st) (f_blk st) (upd (f_lm st) t (f_lm st t ++ [mkMv u b c MAXW])) (f_ins st)) else None | _, _ => None end
  | XBegin t => match Tracker.tpc (Tracker.th s t), f_lm st t with Tracker.Run, m :: rest => if (t <? n)%nat && free_call st t then
      Some (mkF s (f_log st) (begin_call H (f_p st) t m) (f_blk st) (upd (f_lm st) t rest) (f_ins st)) else None | _, _ => None end
  | XAdv t => match Tracker.tpc (Tracker.th s t), p_pc (f_p st) t, f_ins st t with Tracker.Run, TIn m x r, None =>
      match fpstep H k n mops fixed (f_p st) (PAdv t) with Some p' => Some (mkF s (f_log st) p' (f_blk st) (f_lm st) (if is_stored (th (p_c (f_p st)) t) then upd (f_ins st) t (Some m) else f_ins st)) | None => None end | _, _, _ => None end
  | XFetch t => match Tracker.tpc (Tracker.th s t), f_ins st t with Tracker.Run, Some m => if mem (m_u m) (Tracker.mvs (Tracker.th s t)) then
      Some (mkF (Tracker.mkSt (Tracker.son s) (Tracker.rel s) (Tracker.deact s) (Tracker.high s) (Tracker.first s) (Tracker.wrap MAXID (Tracker.running s + 1)) (Tracker.order s) (Tracker.ofnode s)
        (upd (Tracker.th s) t (Tracker.mkTh (Tracker.sid (Tracker.th s t)) (Tracker.pq (Tracker.th s t)) (Tracker.rmv (m_u m) (Tracker.mvs (Tracker.th s t))) (Tracker.Fetched (Tracker.running s) (tm m))))
        (Tracker.inround s) (Tracker.req s) (Tracker.nsearch s)) (Tracker.EIns t (Tracker.running s) (tm m) :: f_log st) (f_p st) (f_blk st) (f_lm st) (upd (f_ins st) t None)) else None | _, _ => None end
  | XOrder t => match Tracker.tpc (Tracker.th s t) with Tracker.Fetched id m => if Tracker.inround s && true then Some (retrack st [] (Tracker.mkSt (Tracker.son s) (Tracker.rel s) (Tracker.deact s) (Tracker.high s) (Tracker.first s) (Tracker.running s)
        (upd (Tracker.order s) (Z.to_nat (Tracker.wrap MAXID (id - Tracker.first s))) (Some m)) (Tracker.ofnode s)
        (upd (Tracker.th s) t (Tracker.withPc (Tracker.th s t) (Tracker.Ordered id m))) (Tracker.inround s) (Tracker.req s) (Tracker.nsearch s))) else None | _ => None end
  | XOfnode t => match Tracker.tpc (Tracker.th s t) with Tracker.Ordered id m => if Tracker.inround s && true then Some (retrack st [] (Tracker.mkSt (Tracker.son s) (Tracker.rel s) (Tracker.deact s) (Tracker.high s) (Tracker.first s) (Tracker.running s) (Tracker.order s) (upd (Tracker.ofnode s) (Tracker.mv_node m) id)
        (upd (Tracker.th s) t (Tracker.withPc (Tracker.th s t) Tracker.Run)) (Tracker.inround s) (Tracker.req s) (Tracker.nsearch s))) else None | _ => None end
  | XStop t => match Tracker.tpc (Tracker.th s t) with Tracker.Run => if free_call st t && Tracker.inround s then Some (retrack st [] (Tracker.setTh s t (Tracker.withPc (Tracker.th s t) Tracker.Releasing))) else None | _ => None end
  | XEnd t => match Tracker.tpc (Tracker.th s t) with Tracker.Releasing => if free_call st t && Tracker.inround s then Some (retrack st [] (Tracker.setTh s t (Tracker.mkTh (Tracker.sid (Tracker.th s t)) [] [] Tracker.Idle))) else None | _ => None end
  end.
Definition lok (st : fmst) : Prop := forall t u v, Tracker.tpc (Tracker.th (f_t st) t) = Tracker.Loaded u v -> In u (nodes H) /\ fixed u = false.
Lemma mono_set (f : nat -> Tracker.thread) t x t' : (exists y, upd f t x t' = y /\ (t' = t /\ y = x \/ t' <> t /\ y = f t')).
Proof. destruct (Nat.eq_dec t' t) as [->|Ne]; [rewrite upd_same|rewrite upd_other by exact Ne]; eexists; split; [reflexivity|left; auto|reflexivity|right; auto]. Qed.
Lemma track_ok st t T' ev x : Tracker.step MAXID N T (f_t st) ev T' -> quiet ev = true -> Tracker.inround T' = true -> lok st ->
  Tracker.th T' = upd (Tracker.th (f_t st)) t x -> (free_call st t = true \/ Tracker.pend (Tracker.tpc (Tracker.th (f_t st) t)) <> None) ->
  (forall u v, Tracker.tpc x = Tracker.Loaded u v -> In u (nodes H) /\ fixed u = false) -> jstep H k n mops N T fixed st (retrack st ev T') /\ lok (retrack st ev T').
Proof.
  intros S Q R K E F X.
  assert (Y : forall t u v, Tracker.tpc (Tracker.th T' t) = Tracker.Loaded u v -> In u (nodes H) /\ fixed u = false).
  { intros t' u v. rewrite E. destruct (mono_set (Tracker.th (f_t st)) t x t') as (y & -> & [[-> ->]|[Ne ->]]); [apply X|apply K]. }
  split; [|exact Y]. apply j_track; auto.
  intros t' Hc. rewrite E. destruct (mono_set (Tracker.th (f_t st)) t x t') as (y & -> & [[-> ->]|[Ne ->]]); [|left; reflexivity].
  destruct F as [F|F]; [|right; exact F]. unfold free_call in F. destruct (p_pc (f_p st) t); [congruence|discriminate..].
Qed.
Lemma jx_sound st l st' : lok st -> jx st l = Some st' -> jstep H k n mops N T fixed st st' /\ lok st'.
Proof.
  intros K E. destruct l as [t|t u|t|t u|t u c|t|t|t|t|t|t|t]; cbn [jx] in E.
  - destruct (Tracker.tpc _) eqn:Et; try discriminate E. destruct (_ && _) eqn:B in E; [|discriminate E]. injection E as <-. repeat (apply andb_true_iff in B; destruct B as [B ?]).
    eapply track_ok; [apply Tracker.s_search; auto; lia| | | | | |]; try reflexivity; auto. discriminate.
  - destruct (Tracker.tpc _) eqn:Et; try discriminate E. destruct (_ && _) eqn:B in E; [|discriminate E]. injection E as <-. repeat (apply andb_true_iff in B; destruct B as [B ?]).
    eapply track_ok; [apply Tracker.s_load; auto; apply Nat.ltb_lt; assumption| | | | | |]; try reflexivity; auto.
    cbn. intros u' v'. destruct (Tracker.isSearchInactive _ _); [|discriminate]. intros X. injection X as <- <-. split; [apply mem_In; assumption|]. apply negb_true_iff. assumption.
  - destruct (Tracker.tpc _) as [| |u v| | |] eqn:Et; try discriminate E. destruct (_ && _) eqn:B in E; [|discriminate E]. injection E as <-. repeat (apply andb_true_iff in B; destruct B as [B ?]).
    eapply track_ok; [eapply Tracker.s_cas; [exact Et|lia]| | | | | |]; try reflexivity; auto. discriminate.
  - destruct (mem _ _) eqn:B; [|discriminate]. destruct (part _ u) as [b|] eqn:Ep; [|discriminate]. injection E as <-. split; [|exact K]. eapply j_read; [apply mem_In; exact B|exact Ep].
  - destruct (Tracker.tpc _) eqn:Et; try discriminate E. destruct (f_blk st u) as [b|] eqn:Eb; [|discriminate E]. destruct (_ && _) eqn:B in E; [|discriminate E]. injection E as <-. repeat (apply andb_true_iff in B; destruct B as [B ?]).
    assert (Hb : b <> c) by (apply Nat.eqb_neq, negb_true_iff; assumption). assert (Hc : (c < k)%nat) by (apply Nat.ltb_lt; assumption).
    assert (Fp : p_pc (f_p st) t = TIdle) by (unfold free_call in *; destruct (p_pc (f_p st) t); [reflexivity|discriminate..]).
    pose proof (j_pop H k n mops N T fixed st t u _ (Some c) (Tracker.s_deact MAXID N T (f_t st) t u Et ltac:(apply mem_In; exact B)) Fp ltac:(exists b; auto)) as X. cbv zeta iota in X. rewrite Eb in X. split; [exact X|].
    intros t' u' v'. cbn. destruct (mono_set (Tracker.th (f_t st)) t (Tracker.mkTh (Tracker.sid (Tracker.th (f_t st) t)) (Tracker.rmv u (Tracker.pq (Tracker.th (f_t st) t))) (u :: Tracker.mvs (Tracker.th (f_t st) t)) Tracker.Run) t') as (y & -> & [[-> ->]|[Ne ->]]); [discriminate|apply K].
  - destruct (Tracker.tpc _) eqn:Et; try discriminate E. destruct (f_lm st t) as [|m rest] eqn:El; [discriminate E|]. destruct (_ && _) eqn:B in E; [|discriminate E]. injection E as <-. repeat (apply andb_true_iff in B; destruct B as [B ?]).
    split; [|exact K]. apply j_begin; auto; [apply Nat.ltb_lt; exact B|]. unfold free_call in *. destruct (p_pc (f_p st) t); [reflexivity|discriminate..].
  - destruct (Tracker.tpc _) eqn:Et; try discriminate E. destruct (p_pc (f_p st) t) as [| |m x r] eqn:Ep; try discriminate E. destruct (f_ins st t) eqn:Ei; [discriminate E|]. destruct (fpstep _ _ _ _ _ _ _) as [p'|] eqn:Ef; [|discriminate E]. injection E as <-.
    split; [|exact K]. eapply j_adv; eassumption.
  - destruct (Tracker.tpc _) eqn:Et; try discriminate E. destruct (f_ins st t) as [m|] eqn:Ei; [|discriminate E]. destruct (mem _ _) eqn:B in E; [|discriminate E]. injection E as <-.
    split; [apply j_fetch with (1 := Ei); apply (Tracker.s_fetch MAXID N T (f_t st) t (tm m) Et); apply mem_In; exact B|].
    intros t' u' v'. cbn [f_t Tracker.th]. match goal with |- Tracker.tpc (upd _ _ ?x _) = _ -> _ => destruct (mono_set (Tracker.th (f_t st)) t x t') as (y & -> & [[-> ->]|[Ne ->]]) end; [discriminate|apply K].
  - destruct (Tracker.tpc _) as [| | |id m| |] eqn:Et; try discriminate E. destruct (_ && _) eqn:B in E; [|discriminate E]. injection E as <-. apply andb_true_iff in B; destruct B as [B _].
    eapply track_ok; [eapply Tracker.s_order; exact Et| | | | | |]; try reflexivity; auto; [right; rewrite Et; discriminate|discriminate].
  - destruct (Tracker.tpc _) as [| | | |id m|] eqn:Et; try discriminate E. destruct (_ && _) eqn:B in E; [|discriminate E]. injection E as <-. apply andb_true_iff in B; destruct B as [B _].
    eapply track_ok; [eapply Tracker.s_ofnode; exact Et| | | | | |]; try reflexivity; auto; [right; rewrite Et; discriminate|discriminate].
  - destruct (Tracker.tpc _) eqn:Et; try discriminate E. destruct (_ && _) eqn:B in E; [|discriminate E]. injection E as <-. repeat (apply andb_true_iff in B; destruct B as [B ?]).
    eapply track_ok; [apply Tracker.s_stop; exact Et| | | | | |]; try reflexivity; auto. discriminate.
  - destruct (Tracker.tpc _) eqn:Et; try discriminate E. destruct (_ && _) eqn:B in E; [|discriminate E]. injection E as <-. repeat (apply andb_true_iff in B; destruct B as [B ?]).
    eapply track_ok; [apply Tracker.s_end; exact Et| | | | | |]; try reflexivity; auto. discriminate.
Qed.
Lemma jxs_sound ls : forall st0 st st', lok st -> jreach H k n mops N T fixed st0 st -> fold_opt jx st ls = Some st' -> jreach H k n mops N T fixed st0 st'.
Proof.
  induction ls as [|l ls IH]; cbn [fold_opt]; intros st0 st st' K R E; [injection E as <-; exact R|]. destruct (jx st l) as [st1|] eqn:E1; [|discriminate].
  destruct (jx_sound st l st1 K E1) as [S1 K1]. exact (IH st0 st1 st' K1 (jr_step _ _ _ _ _ _ _ _ st st1 R S1) E).
Qed.
Definition xt (l : xl) : nat := match l with XSearch t | XLoad t _ | XCas t | XRead t _ | XPop t _ _ | XBegin t | XAdv t | XFetch t | XOrder t | XOfnode t | XStop t | XEnd t => t end.
Lemma jx_other st l st' t : jx st l = Some st' -> t <> xt l -> Tracker.th (f_t st') t = Tracker.th (f_t st) t.
Proof.
  intros E Ne. destruct l; cbn [jx xt] in *;
    repeat match type of E with context [match ?x with _ => _ end] => destruct x; try discriminate E end; try discriminate E; injection E as <-; cbn; try (apply upd_other; exact Ne); reflexivity.
Qed.
Lemma jxs_other ls : forall st st' t, fold_opt jx st ls = Some st' -> (forall l, In l ls -> t <> xt l) -> Tracker.th (f_t st') t = Tracker.th (f_t st) t.
Proof.
  induction ls as [|l ls IH]; cbn [fold_opt]; intros st st' t E Ne; [injection E as <-; reflexivity|]. destruct (jx st l) as [st1|] eqn:E1; [|discriminate].
  rewrite (IH st1 st' t E ltac:(intros l' X; apply Ne; right; exact X)). apply (jx_other st l st1 t E1). apply Ne. left. reflexivity.
Qed.
End X.

(** Four nodes in a path, alternating blocks; node 3 is fixed. *)
Definition mH : hypergraph := {| nodes := seq 0 4; edges := seq 0 3; pins := fun e => nth e [[0;1];[1;2];[2;3]]%nat [];
  inc := fun v => nth v [[0];[0;1];[1;2];[2]]%nat []; nw := fun _ => 1; ew := fun e => nth e [2;3;1] 0 |}.
Definition mP : partition := fun v => nth v [Some 0;Some 1;Some 0;Some 1]%nat None.
Definition mS : phg := state_of mH 2 mP.
Definition mfixed (v : nat) : bool := Nat.eqb v 3.
Definition mL (b : nat) : Z := 3.
Lemma m_started : started mH mS.
Proof.
  apply state_of_started; [apply wf_hgb_sound; vm_compute; reflexivity| |].
  - intros v b. unfold mP. do 4 (destruct v as [|v]; [cbn; intros E; inversion E; lia|]). cbn. destruct v; discriminate.
  - intros v Hv. cbn in Hv. destruct Hv as [<-|[<-|[<-|[<-|[]]]]]; cbn; eexists; (split; [reflexivity|lia]).
Qed.
Definition mT1 : Tracker.st := Tracker.requestNewSearches MAXID Tracker.init 4.
Definition m0 : fmst := fm_start mH mT1 [Tracker.ERound] mS (mkCache (fun _ => 0) (fun _ _ => 0)) (mkN [] (fun _ => false) (fun _ => false) (fun _ => None) (fun _ => false)).
(** Thread 0 moves node 1 to block 0 (gain 5), thread 1 moves node 0 to block 1 (gain -2 afterwards); the two calls overlap. *)
Definition m_sched : list xl :=
  [XSearch 0; XSearch 1; XLoad 0 1; XLoad 1 0; XCas 1; XCas 0; XRead 0 1; XRead 1 0; XPop 0 1 0; XPop 1 0 1; XBegin 0; XBegin 1;
   XAdv 0; XAdv 1; XAdv 0; XFetch 0; XAdv 1; XFetch 1; XOrder 1; XOrder 0; XOfnode 0; XOfnode 1]%nat ++
  repeat (XAdv 0) 7 ++ repeat (XAdv 1) 11 ++ repeat (XAdv 0) 15 ++ [XStop 0; XEnd 0; XStop 1; XEnd 1].

Definition nocu (H : hypergraph) (su : sync_update) : list mop := [].
Definition c00 : cache := mkCache (fun _ => 0) (fun _ _ => 0).
(** Reverting both moves, and then the second one only. *)
Definition rl1 : list label := Begin 0 (mkMv 1 0 1 MAXW) :: repeat (Adv 0) 13 ++ Begin 0 (mkMv 0 1 0 MAXW) :: repeat (Adv 0) 8.
Definition rl2 : list label := Begin 0 (mkMv 0 1 0 MAXW) :: repeat (Adv 0) 8.
Definition m_obs (oF : option fmst) :=
  match oF with None => None | Some F =>
  let t := view (UncRound.itr_of (f_t F)) in
  match crun mH 1 nocu (cinit (sh (p_c (f_p F))) c00) rl1 with None => None | Some st =>
  match seq_forward mH t mL km1_gain_of (sh st) with None => None | Some q =>
  match crun mH 1 nocu (cinit (q_s q) c00) rl2 with None => None | Some st2 =>
  Some (map (fun t => match Tracker.tpc (Tracker.th (f_t F) t) with Tracker.Idle => true | _ => false end) (seq 0 2),
        map (part (sh (p_c (f_p F)))) (seq 0 4), idleb (th st 0), idleb (th st2 0), reverts t 0, reverts t (q_best q), q_best_gain q, map (part (sh st2)) (seq 0 4))
  end end end end.
Lemma m_run : m_obs (fold_opt (jx mH 2 2 km1_mops 4 8 mfixed) m0 m_sched) =
  Some ([true; true], [Some 1; Some 0; Some 0; Some 1]%nat, true, true, [mkMv 1 0 1 MAXW; mkMv 0 1 0 MAXW], [mkMv 0 1 0 MAXW], 5, [Some 0; Some 0; Some 0; Some 1]%nat).
Proof. vm_compute. reflexivity. Qed.

Lemma m_sizes : fm_sizes mH 2 4 8.
Proof.
  unfold fm_sizes. split; [vm_compute; discriminate|]. split; [lia|]. split; [cbn; lia|]. split; [lia|]. split; [intros; cbn; lia|]. split; [|vm_compute; discriminate].
  intros e He. cbn in He. destruct He as [<-|[<-|[<-|[]]]]; cbn; lia.
Qed.
Definition m_init : fmstate := mkFS Tracker.init [] mS.
Lemma m_can_start : fm_can_start mH 2 4 8 m_init.
Proof. split; [constructor|]. split; [reflexivity|]. split; [exact m_started|reflexivity]. Qed.
(** The round keeps the improving move and reverts the other one; the objective drops from 6 to 1, and the partition is balanced. *)
Theorem C74_example : fm_sizes mH 2 4 8 /\ fm_can_start mH 2 4 8 m_init /\ balanced mH 2 mL mP /\
  exists S', fm_refine mH 2 2 km1_mops 4 8 mfixed mL mL km1_rollback km1_gain_of m_init 5 S' /\
    map (part (fs_s S')) (seq 0 4) = [Some 0; Some 0; Some 0; Some 1]%nat /\ km1 mH mP = 6 /\ km1 mH (part (fs_s S')) = 1.
Proof.
  split; [exact m_sizes|]. split; [exact m_can_start|]. split; [intros [|[|b]] Hb; [vm_compute; discriminate..|lia]|].
  assert (X : exists r, r = fold_opt (jx mH 2 2 km1_mops 4 8 mfixed) m0 m_sched /\ m_obs r =
    Some ([true; true], [Some 1; Some 0; Some 0; Some 1]%nat, true, true, [mkMv 1 0 1 MAXW; mkMv 0 1 0 MAXW], [mkMv 0 1 0 MAXW], 5, [Some 0; Some 0; Some 0; Some 1]%nat)) by (eexists; split; [reflexivity|exact m_run]).
  destruct X as ([F|] & EF & Ob); [|discriminate Ob]. symmetry in EF. unfold m_obs in Ob.
  destruct (crun mH 1 nocu (cinit (sh (p_c (f_p F))) c00) rl1) as [st|] eqn:E1; [|discriminate Ob].
  destruct (seq_forward mH (view (UncRound.itr_of (f_t F))) mL km1_gain_of (sh st)) as [q|] eqn:E2; [|discriminate Ob].
  destruct (crun mH 1 nocu (cinit (q_s q) c00) rl2) as [st2|] eqn:E3; [|discriminate Ob].
  apply (f_equal (fun o => match o with Some x => x | None => ([], [], false, false, [], [], 0, []) end)) in Ob. cbv beta iota in Ob.
  apply pair_equal_spec in Ob. destruct Ob as [Ob O8]. apply pair_equal_spec in Ob. destruct Ob as [Ob O7]. apply pair_equal_spec in Ob. destruct Ob as [Ob O6]. apply pair_equal_spec in Ob. destruct Ob as [Ob O5].
  apply pair_equal_spec in Ob. destruct Ob as [Ob O4]. apply pair_equal_spec in Ob. destruct Ob as [Ob O3]. apply pair_equal_spec in Ob. destruct Ob as [O1 O2].
  assert (L0 : lok mH mfixed m0) by (intros t u v Y; discriminate Y).
  assert (Jr : jreach mH 2 2 km1_mops 4 8 mfixed m0 F) by exact (jxs_sound mH 2 2 km1_mops 4 8 mfixed m_sched m0 m0 F L0 (jr_start _ _ _ _ _ _ _ _) EF).
  assert (Ai : all_idle F).
  { intros t. destruct (le_lt_dec 2 t) as [Ht|Ht].
    - rewrite (jxs_other mH 2 2 km1_mops 4 8 mfixed m_sched m0 F t EF); [reflexivity|].
      assert (Y : forallb (fun l => (xt l <? 2)%nat) m_sched = true) by (vm_compute; reflexivity). rewrite forallb_forall in Y. intros l Hl. specialize (Y l Hl). apply Nat.ltb_lt in Y. lia.
    - cbn [map seq] in O1. injection O1 as A0 A1. assert (t = 0 \/ t = 1)%nat as [->| ->] by lia; [destruct (Tracker.tpc (Tracker.th (f_t F) 0%nat)); try reflexivity; discriminate|destruct (Tracker.tpc (Tracker.th (f_t F) 1%nat)); try reflexivity; discriminate]. }
  assert (S1 : Tracker.step MAXID 4 8 (fs_t m_init) [Tracker.ERound] mT1) by (apply Tracker.s_round; [reflexivity|reflexivity|cbn; lia]).
  assert (Q1 : quiescent 1 st) by (intros i Hi; assert (i = 0)%nat as -> by lia; destruct (th st 0); [reflexivity|discriminate..]).
  assert (Q2 : quiescent 1 st2) by (intros i Hi; assert (i = 0)%nat as -> by lia; destruct (th st2 0); [reflexivity|discriminate..]).
  assert (Rb : rollback mH 2 mL km1_rollback km1_gain_of (view (UncRound.itr_of (f_t F))) (wt mS) (sh (p_c (f_p F))) true (q_best_gain q) (sh st2)).
  { eapply rb_sequential; [exact E1|exact Q1|rewrite O5; vm_compute; apply Permutation_refl|exact E2|exact E3|exact Q2|rewrite O6; vm_compute; apply Permutation_refl]. }
  rewrite O7 in Rb.
  assert (Fr : fm_round mH 2 2 km1_mops 4 8 mfixed mL mL km1_rollback km1_gain_of m_init 5 (mkFS (finish_round 4 (f_t F) (Tracker.order (f_t F)) (UncRound.itr_of (f_t F)) true) (reset_event true ++ f_log F) (sh st2))).
  { exact (fr_plain mH 2 2 km1_mops 4 8 mfixed mL mL km1_rollback km1_gain_of m_init false mT1 c00 _ F 5 (sh st2) true S1 Jr Ai (or_introl eq_refl) Rb). }
  eexists. split; [exact (fm_more mH 2 2 km1_mops 4 8 mfixed mL mL km1_rollback km1_gain_of m_init 0 m_init 5 _ (fm_done _ _ _ _ _ _ _ _ _ _ _ _) Fr)|]. cbn [fs_s]. split; [exact O8|]. split; [vm_compute; reflexivity|].
  destruct (C74_fm_never_worse mH 2 2 km1_mops 4 8 mfixed mL mL km1_rollback km1_gain_of km1 m_init 5 _ m_sizes m_can_start ltac:(left; reflexivity) (fm_more mH 2 2 km1_mops 4 8 mfixed mL mL km1_rollback km1_gain_of m_init 0 m_init 5 _ (fm_done _ _ _ _ _ _ _ _ _ _ _ _) Fr)) as (_ & Y & _).
  cbn [fs_s] in Y. rewrite <- (Y 6 ltac:(vm_compute; reflexivity)). lia.
Qed.
