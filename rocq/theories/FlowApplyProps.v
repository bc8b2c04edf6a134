(** FlowApplyProps.v - C75 stated for whole refinements, and an example with all three outcomes of a call. *)
From Coq Require Import FunctionalExtensionality.
From Verif Require Import Base Spec SpecLemmas WfCheck PHG PHGProofs Objective GainCache GainCacheProofs Metrics PropsA Conc Scan DetLP DetLPThms DetLPProps Interleave LPSeq FlowApply FlowApplyThms.

(** The limit used during one refinement: a block that is already too heavy must not become heavier. *)
Definition flow_limit (H : hypergraph) (P : partition) (L : nat -> Z) (b : nat) : Z := Z.max (block_weight H P b) (L b).

Section Run.
Variables (H : hypergraph) (k : nat) (o : objective) (L : nat -> Z) (gcu : bool) (G : gain_policy).
Hypotheses (Wn : forall v, In v (nodes H) -> 0 <= nw H v) (Wt : total_weight H <= MAXW).
Local Notation rd := (ready H k).
Local Notation obj := (obj_spec o H).
Local Notation bw := (block_weight H).

Lemma init_finv s c wm : rd s -> finv H k (initialize L s c wm).
Proof.
  intros R. pose proof R as [(WF & C & HC) K]. constructor; cbn [initialize f_s f_pw f_mx]; [exact R| |];
    intros b Hb; rewrite (c_wt H s C b) by lia; [reflexivity|lia].
Qed.

Lemma calls_ok l : forall st, finv H k st -> Forall (valid_seq H k) l ->
  exists st' out, flow_calls H k o gcu G st l = Some (st', out) /\ finv H k st' /\ f_mx st' = f_mx st /\
    sumZ fst out = obj (part (f_s st)) - obj (part (f_s st')) /\
    Forall (fun r => 0 <= fst r /\ snd r <> WORSEN_SOLUTION_QUALITY_WITHOUT_ROLLBACK) out /\ length out = length l /\
    (forall v, ~ In v (concat (map (map fst) l)) -> part (f_s st') v = part (f_s st) v) /\
    (gcu = true -> forall d, exists tr d', gc_run G H (f_s st, f_c st, d) tr = Some (f_s st', f_c st', d') /\ Forall (gc_op_ok H) tr /\ (forall u, In u d' -> In u d \/ In u (f_wm st'))) /\
    (gcu = false -> f_c st' = f_c st) /\ incl (f_wm st) (f_wm st') /\ (incl (f_wm st) (nodes H) -> incl (f_wm st') (nodes H)).
Proof.
  induction l as [|sq l IH]; intros st I F.
  - exists st, []. split; [reflexivity|]. split; [exact I|]. split; [reflexivity|]. split; [cbn; lia|]. split; [constructor|]. split; [reflexivity|]. split; [reflexivity|].
    split; [|split; [reflexivity|split; [apply incl_refl|auto]]]. intros _ d. exists [], d. split; [reflexivity|]. split; [constructor|tauto].
  - inversion F as [|? ? V F']; subst.
    destruct (applyMoves_ok H k o gcu G Wn Wt st sq I V) as (st1 & imp & stt & nch & E1 & I1 & M1 & O1 & W1 & GC1 & GC1b & W1b).
    destruct (IH st1 I1 F') as (st2 & out & E2 & I2 & M2 & S2 & A2 & Len & N2 & GC2 & GC2b & W2 & W2b).
    exists st2, ((imp, stt) :: out). cbn [flow_calls]. rewrite E1, E2. split; [reflexivity|]. split; [exact I2|]. split; [congruence|].
    assert (Out : imp = obj (part (f_s st)) - obj (part (f_s st1)) /\ 0 <= imp /\ stt <> WORSEN_SOLUTION_QUALITY_WITHOUT_ROLLBACK /\
              (part (f_s st1) = part (f_s st) \/ part (f_s st1) = moves (part (f_s st)) sq)).
    { destruct O1 as [(-> & _ & -> & ->)|[(-> & _ & _ & -> & ->)|(-> & _ & LE & -> & -> & _)]]; (split; [lia|split; [lia|split; [discriminate|auto]]]). }
    destruct Out as (X1 & X2 & X3 & X4).
    split; [cbn [sumZ fst]; lia|]. split; [constructor; [cbn; auto|exact A2]|]. split; [cbn; lia|].
    split; [|split; [|split; [intros Hg; rewrite (GC2b Hg); auto|split; [eapply incl_tran; eauto|]]]].
    + intros v Hv. cbn in Hv. rewrite in_app_iff in Hv. rewrite (N2 v) by tauto. destruct X4 as [->| ->]; [reflexivity|]. apply moves_out. tauto.
    + intros Hg d. destruct (GC1 Hg d) as (tr & d1 & T1 & T2 & T3). destruct (GC2 Hg d1) as (tr2 & d2 & U1 & U2 & U3).
      exists (tr ++ tr2), d2. split; [unfold gc_run in *; rewrite fold_opt_app, T1; exact U1|]. split; [apply Forall_app; auto|].
      intros u Hu. destruct (U3 u Hu) as [Y|Y]; [|auto]. destruct (T3 u Y) as [Z|Z]; auto.
    + intros Hn. apply W2b. intros u Hu. destruct (W1b u Hu) as [Y|Y]; [apply Hn; exact Y|]. apply in_map_iff in Y. destruct Y as ([u' t] & <- & Y). apply (proj2 V u' t Y).
Qed.

Theorem C75_flow_never_worse s c wm q l : rd s -> q = obj (part s) -> Forall (valid_seq H k) l ->
  exists s' c' q' ret out, refine_flow H k o L gcu G s c wm q l = Some (s', c', q', ret, out) /\
    ready H k s' /\ q' = obj (part s') /\ obj (part s') <= obj (part s) /\ (ret = true <-> obj (part s') < obj (part s)) /\
    (forall b, (b < k)%nat -> bw (part s') b <= flow_limit H (part s) L b) /\
    (forall v, ~ In v (concat (map (map fst) l)) -> part s' v = part s v) /\
    length out = length l /\ Forall (fun r => 0 <= fst r /\ snd r <> WORSEN_SOLUTION_QUALITY_WITHOUT_ROLLBACK) out.
Proof.
  intros R Q V. destruct (calls_ok l (initialize L s c wm) (init_finv s c wm R) V) as (st & out & E & I & M & S & A & Len & N & _).
  cbn [initialize f_s f_mx] in *. unfold refine_flow. rewrite E. eexists _, _, _, _, _. split; [reflexivity|]. destruct I as [R' PW MX].
  split; [exact R'|]. split; [lia|].
  assert (0 <= sumZ fst out) by (apply sumZ_nonneg; intros x Hx; rewrite Forall_forall in A; apply (A x Hx)).
  split; [lia|]. split; [rewrite Z.ltb_lt; lia|]. split; [|split; [exact N|split; [exact Len|exact A]]].
  intros b Hb. specialize (MX b Hb). rewrite M in MX. destruct R as [(_ & C & _) K]. rewrite (c_wt H s C b) in MX by lia. exact MX.
Qed.

(** Every call applies its sequence exactly when all blocks stay within their limits and the objective does not get worse. *)
Theorem C75_call_outcome s c wm l st out sq : rd s -> Forall (valid_seq H k) l -> valid_seq H k sq ->
  flow_calls H k o gcu G (initialize L s c wm) l = Some (st, out) ->
  let P := part (f_s st) in let Q := moves P sq in let fit := forall b, (b < k)%nat -> bw Q b <= flow_limit H (part s) L b in
  exists st' imp stt nch, applyMoves H k o gcu G st sq = Some (st', imp, stt, nch) /\
   ((stt = VIOLATES_BALANCE_CONSTRAINT /\ ~ fit /\ part (f_s st') = P /\ imp = 0) \/
    (stt = WORSEN_SOLUTION_QUALITY /\ fit /\ obj P < obj Q /\ part (f_s st') = P /\ imp = 0) \/
    (stt = SUCCESS /\ fit /\ obj Q <= obj P /\ part (f_s st') = Q /\ imp = obj P - obj Q /\
     (forall e ob, In (e, ob) nch -> In e (edges H) /\ exists b, ob = Some b /\ (b < k)%nat) /\
     forall e b, In e (edges H) -> pin_count H P e b = 0 -> 0 < pin_count H Q e b -> In (e, Some b) nch)).
Proof.
  intros R V Vs E P Q fit. destruct (calls_ok l (initialize L s c wm) (init_finv s c wm R) V) as (st1 & out1 & E1 & I & M & _).
  rewrite E in E1. injection E1 as <- <-.
  destruct (applyMoves_ok H k o gcu G Wn Wt st sq I Vs) as (st' & imp & stt & nch & E2 & _ & _ & O & _).
  exists st', imp, stt, nch. split; [exact E2|]. fold P in O. fold Q in O.
  assert (Fe : fits H k (f_mx st) Q <-> fit).
  { unfold fits, fit, flow_limit. rewrite M. cbn [initialize f_mx]. destruct R as [(_ & C & _) K]. split; intros X b Hb; specialize (X b Hb); rewrite (c_wt H s C b) in * by lia; exact X. }
  destruct O as [(A & B & C & D)|[(A & B & C & D & F)|(A & B & C & D & F & SN & CV)]].
  - left. split; [exact A|]. split; [tauto|]. split; [unfold P; rewrite C; reflexivity|exact D].
  - right. left. split; [exact A|]. split; [tauto|]. auto.
  - right. right. split; [exact A|]. split; [tauto|]. split; [exact C|]. split; [exact D|]. split; [exact F|]. split; [|exact CV].
    intros e ob He. unfold sound in SN. rewrite Forall_forall in SN. apply (SN (e, ob) He).
Qed.

(** With gain cache updates on, the cache is exactly as after a gain cache session without unprocessed moves. *)
Lemma recompute_run s l : forall c d, incl l (nodes H) -> exists d', gc_run G H (s, c, d) (map GRecompute l) = Some (s, fold_left (recomputeInvalidTerms G H s) l c, d') /\
  Forall (gc_op_ok H) (map GRecompute l) /\ (forall u, In u d' -> In u d /\ ~ In u l).
Proof.
  induction l as [|v l IH]; intros c d Hl; [exists d; cbn; split; [reflexivity|]; split; [constructor|tauto]|].
  destruct (IH (recomputeInvalidTerms G H s c v) (remove Nat.eq_dec v d)) as (d' & E & F & D); [intros x Hx; apply Hl; right; exact Hx|].
  exists d'. unfold gc_run in *. cbn [map fold_opt gc_step fold_left]. split; [exact E|]. split; [constructor; [cbn; apply Hl; left; reflexivity|exact F]|].
  intros u Hu. destruct (D u Hu) as [D1 D2]. apply in_remove in D1. cbn. split; [tauto|]. intros [->|X]; tauto.
Qed.
Theorem C75_gain_cache s0 ops s c wm q l s' c' q' ret out : gcu = true -> session G H s0 ops (s, c, []) -> rd s -> incl wm (nodes H) -> Forall (valid_seq H k) l ->
  refine_flow H k o L gcu G s c wm q l = Some (s', c', q', ret, out) -> exists ops', session G H s0 (ops ++ ops') (s', c', []).
Proof.
  intros Hg (sched & c0 & Hs & Ho & Hr) R Hw V E.
  destruct (calls_ok l (initialize L s c wm) (init_finv s c wm R) V) as (st & out1 & E1 & I & M & S & A & Len & N & GC & _ & W1 & W2).
  unfold refine_flow in E. rewrite E1, Hg in E. injection E as <- <- <- <- <-. cbn [initialize f_s f_c f_wm] in *.
  destruct (GC Hg []) as (tr & d' & T1 & T2 & T3).
  destruct (recompute_run (f_s st) (f_wm st) (f_c st) d' (W2 Hw)) as (d2 & U1 & U2 & U3).
  exists (tr ++ map GRecompute (f_wm st)). exists sched, c0. split; [exact Hs|]. split; [repeat (apply Forall_app; split); assumption|].
  unfold gc_run in *. rewrite fold_opt_app, Hr, fold_opt_app, T1, U1. f_equal. f_equal.
  destruct d2 as [|x d2]; [reflexivity|]. exfalso. destruct (U3 x (or_introl eq_refl)) as [X Y]. destruct (T3 x X) as [[]|Z]. exact (Y Z).
Qed.
End Run.

(** For km1 (the other objectives: C08, C09): after the refinement the cached gains are the exact ones for every node. *)
Corollary C75_cached_gains : forall H k L s0 ops s c wm q l s' c' q' ret out,
  (forall v, In v (nodes H) -> 0 <= nw H v) -> total_weight H <= MAXW -> started H s0 -> pk s0 = k ->
  session km1_policy H s0 ops (s, c, []) -> ready H k s -> incl wm (nodes H) -> Forall (valid_seq H k) l ->
  refine_flow H k Okm1 L true km1_policy s c wm q l = Some (s', c', q', ret, out) ->
  forall u from to, In u (nodes H) -> part s' u = Some from -> from <> to -> (to < k)%nat ->
  cache_gain c' u to = km1 H (part s') - km1 H (move (part s') u to).
Proof.
  intros H k L s0 ops s c wm q l s' c' q' ret out Wn Wt ST K Se R Hw V E u from to Hu Pu Ne Ht.
  destruct (C75_gain_cache H k Okm1 L true km1_policy Wn Wt s0 ops s c wm q l s' c' q' ret out eq_refl Se R Hw V E) as [ops' Se'].
  apply (C07_km1_gain_cache_exact H s0 (ops ++ ops') s' c' [] ST Se' u from to Hu Pu Ne); [lia|auto].
Qed.

(** Example: a path of four nodes, blocks {0,2} and {1,3}, limit 3.  Three searches: moving node 1 improves the objective from 6 to 1; a
    second search then overloads block 0; a third one, computed from the initial partition, would make the objective worse and is undone. *)
Definition wH : hypergraph := {| nodes := seq 0 4; edges := seq 0 3; pins := fun e => nth e [[0;1];[1;2];[2;3]]%nat [];
  inc := fun v => nth v [[0];[0;1];[1;2];[2]]%nat []; nw := fun _ => 1; ew := fun e => nth e [2;3;1] 0 |}.
Definition wP : partition := fun v => nth v [Some 0;Some 1;Some 0;Some 1]%nat None.
Definition wS : phg := state_of wH 2 wP.
Definition wseqs : list (list (nat * nat)) := [[(1, 0)]; [(3, 0)]; [(3, 0); (1, 1)]]%nat.
Lemma w_started : started wH wS.
Proof.
  apply state_of_started; [apply wf_hgb_sound; vm_compute; reflexivity| |].
  - intros v b. unfold wP. do 4 (destruct v as [|v]; [cbn; intros E; inversion E; lia|]). cbn. destruct v; discriminate.
  - intros v Hv. cbn in Hv. destruct Hv as [<-|[<-|[<-|[<-|[]]]]]; cbn; eexists; (split; [reflexivity|lia]).
Qed.
Theorem C75_example : ready wH 2 wS /\ total_weight wH <= MAXW /\ Forall (valid_seq wH 2) wseqs /\
  match refine_flow wH 2 Okm1 (fun _ => 3) true km1_policy wS (initializeGainCache km1_policy wH wS (fun u => [inc wH u]) (mkCache (fun _ => 0) (fun _ _ => 0))) [] 6 wseqs with
  | Some (s', c', q', ret, out) => map (part s') (seq 0 4) = [Some 0; Some 0; Some 0; Some 1]%nat /\ q' = 1 /\ ret = true /\
      out = [(5, SUCCESS); (0, VIOLATES_BALANCE_CONSTRAINT); (0, WORSEN_SOLUTION_QUALITY)] /\ map (fun u => cache_gain c' u 1%nat) [0;1;2]%nat = [-2; -5; -2]
  | None => False
  end.
Proof.
  split; [split; [exact w_started|reflexivity]|]. split; [vm_compute; discriminate|]. split.
  - rewrite Forall_forall. intros sq Hs. assert (ND : NoDup (map fst sq)).
    { cbn in Hs. destruct Hs as [<-|[<-|[<-|[]]]]; cbn; repeat (apply NoDup_cons; [cbn; lia|]); apply NoDup_nil. }
    split; [exact ND|]. intros u t X. cbn in Hs.
    destruct Hs as [<-|[<-|[<-|[]]]]; cbn in X; repeat (destruct X as [X|X]; [injection X as <- <-; cbn; lia|]); destruct X.
  - vm_compute. repeat split; reflexivity.
Qed.
