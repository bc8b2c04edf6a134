(** LPSeq.v - label propagation with execute_sequential = true: moveVertex (label_propagation_refiner.cpp:44-95), the sequential loops
    (cpp:235-246, 303-310 with 317-322) and their guarantees. *)
From Verif Require Import Base Spec SpecLemmas PHG PHGProofs Objective GainCache GainCacheProofs Metrics PropsA Conc DetLP DetLPThms Jet JetThms JetProps SeqRollback Scan Rebalance RebalanceThms GainComp GainCompThms GainCompProps LP LPThms.

Section Seq.
Variables (H : hypergraph) (k : nat) (L PB : nat -> Z) (o : objective) (fixed : nat -> bool) (mu rebal : bool) (thr : Z).
Local Notation gain_of := (gain_of o).
(** partition, _gain.localDelta(), activation data *)
Record lps := mkP { l_s : phg; l_d : Z; l_n : nact }.
(** changeNodePart, .h:121-133 *)
Definition chg (u : bool) (s : phg) (hn from to : nat) := changeNodePart H s hn from to (if u then MAXW else L to).
(** cpp:56-64 *)
Definition perform_move (s : phg) (from to : nat) (g : Z) : bool :=
  (g <? 0) || (rebal && (g =? 0) && (partWeight s to + 1 <? partWeight s from - 1) && (partWeight s to <? PB to)).
(** moveVertex, cpp:44-95; [coin]: the coins flipped in computeMaxGainMove *)
Definition moveVertex (u : bool) (x : lps) (hn : nat) (coin : nat -> bool) : option (lps * bool) :=
  let s := l_s x in
  match part s hn with
  | None => None
  | Some from =>
    if isBorderNode H s hn && negb (fixed hn) then
      let '(to, g) := computeMaxGainMove H o s L false false false u coin 0 from hn in
      if negb (Nat.eqb from to) && perform_move s from to g then
        match chg u s hn from to with
        | None => None
        | Some (s1, changed, sus) =>
          let d1 := l_d x + sumZ gain_of sus in
          if u || changed then
            let move_delta := d1 - l_d x in
            if (move_delta =? g) || (move_delta <=? 0)
            then Some (mkP s1 d1 (if u then l_n x else activateNN H mu thr true (part s1) (l_n x) hn), true)
            else match chg u s1 hn to from with
                 | None => None
                 | Some (s2, _, sus2) => Some (mkP s2 (d1 + sumZ gain_of sus2) (l_n x), true)
                 end
          else Some (mkP s1 d1 (l_n x), true)
        end
      else Some (x, false)
    else Some (x, false)
  end.
(** The loop cpp:239-245 over the shuffled active nodes; result: state and the nodes whose flag is set. *)
Fixpoint move_nodes (u : bool) (x : lps) (l : list (nat * (nat -> bool))) : option (lps * list nat) :=
  match l with
  | [] => Some (x, [])
  | (hn, coin) :: l' =>
    match moveVertex u x hn coin with
    | None => None
    | Some (x1, b) => match move_nodes u x1 l' with
                      | None => None
                      | Some (x2, m) => Some (x2, if b then hn :: m else m)
                      end
    end
  end.
(** moveActiveNodes, sequential: the active nodes are shuffled first. *)
Definition sphase (u : bool) (act : list nat) (s : phg) (x : nact) (s' : phg) (d : Z) (mvd : list nat) (y : nact) : Prop :=
  exists sh, Permutation (map fst sh) act /\ move_nodes u (mkP s 0 x) sh = Some (mkP s' d y, mvd).
(** cpp:303-310, sequential *)
Definition roll1 (od : nat -> option nat) (s : phg) (v : nat) : option phg :=
  if opt_eqb (part s v) (od v) then Some s
  else match part s v, od v with
       | Some from, Some to => match chg true s v from to with Some (s', _, _) => Some s' | None => None end
       | _, _ => None
       end.
Definition srollb (l : list nat) (od : nat -> option nat) (s s' : phg) : Prop := fold_opt (roll1 od) s l = Some s'.

(** *** Proofs *)
Hypotheses (Wn : forall v, In v (nodes H) -> 0 <= nw H v) (Wt : total_weight H <= MAXW).
Local Notation rd := (ready H k).
Local Notation obj := (obj_spec o H).
Lemma attributed s u from to : rd s -> In u (nodes H) -> part s u = Some from -> from <> to -> (to < k)%nat ->
  sumZ gain_of (map (fun e => mkSync e from to (ew H e) (Z.of_nat (length (pins H e))) (pin_count H (part s) e from - 1) (pin_count H (part s) e to + 1)) (inc H u)) =
  obj (move (part s) u to) - obj (part s).
Proof.
  intros [(WF & C & HC) K] Hu Pu Ne Ht. rewrite <- K in Ht. destruct o; cbn [DetLP.gain_of obj_spec].
  - apply (cut_attributed H (pk s) (part s) u from to WF Hu Pu Ne Ht HC).
  - apply (km1_attributed H (pk s) (part s) u from to WF Hu Pu Ne Ht HC).
  - apply (soed_attributed H (pk s) (part s) u from to WF Hu Pu Ne Ht HC).
Qed.
Lemma chg_ok u s hn from to : rd s -> In hn (nodes H) -> part s hn = Some from -> from <> to -> (to < k)%nat -> (u = true \/ block_weight H (part s) to + nw H hn <= L to) ->
  exists s' sus, chg u s hn from to = Some (s', true, sus) /\ rd s' /\ part s' = move (part s) hn to /\ sumZ gain_of sus = obj (move (part s) hn to) - obj (part s).
Proof.
  intros R Hu Pu Ne Ht Cap. pose proof R as [(WF & C & HC) K].
  assert (Hw : wt s to + nw H hn <= (if u then MAXW else L to)).
  { rewrite (c_wt H s C to) by lia. destruct u; [|destruct Cap as [Cap|Cap]; [discriminate|exact Cap]].
    pose proof (block_weight_le_total H Wn (move (part s) hn to) to) as X. rewrite block_weight_move in X by (try apply WF; assumption).
    unfold in_block in X. rewrite Pu, Nat.eqb_refl in X. rewrite (proj2 (Nat.eqb_neq from to) Ne) in X. cbn in X. lia. }
  destruct (change_accept H WF s hn from to _ C Hu Pu Ne ltac:(lia) Hw) as (s' & E & C' & K' & P').
  exists s'. eexists. split; [exact E|]. split; [|split; [exact P'|apply attributed; assumption]].
  split; [|congruence]. split; [exact WF|]. split; [exact C'|]. rewrite P'. intros v Hv. unfold move, upd. destruct (Nat.eqb v hn); [exists to; split; [reflexivity|lia]|]. rewrite K'. apply HC. exact Hv.
Qed.

(** One node: either nothing happens, or it is moved to a block that can take it and the objective does not grow. *)
Lemma moveVertex_ok u x hn coin : rd (l_s x) -> In hn (nodes H) -> exists x' b, moveVertex u x hn coin = Some (x', b) /\ rd (l_s x') /\
  (b = false -> x' = x) /\
  (b = true -> fixed hn = false /\ l_n x' = (if u then l_n x else activateNN H mu thr true (part (l_s x')) (l_n x) hn) /\
    l_d x' - l_d x = obj (part (l_s x')) - obj (part (l_s x)) /\ l_d x' <= l_d x /\
    exists to, can_take H (part (l_s x)) k L u hn to /\ part (l_s x') = move (part (l_s x)) hn to).
Proof.
  intros R Hu. pose proof R as [ST K]. pose proof ST as (WF & C & HC). unfold moveVertex. destruct (HC hn Hu) as (from & Pu & Lf). rewrite Pu.
  destruct (isBorderNode H (l_s x) hn && negb (fixed hn)) eqn:B.
  2:{ exists x, false. split; [reflexivity|]. split; [exact R|]. split; [reflexivity|discriminate]. }
  apply andb_true_iff in B. destruct B as [_ B]. apply negb_true_iff in B.
  destruct (computeMaxGainMove H o (l_s x) L false false false u coin 0 from hn) as [to g] eqn:E.
  destruct (negb (Nat.eqb from to) && perform_move (l_s x) from to g) eqn:Pm.
  2:{ exists x, false. split; [reflexivity|]. split; [exact R|]. split; [reflexivity|discriminate]. }
  apply andb_true_iff in Pm. destruct Pm as [Ne Pm]. apply negb_true_iff, Nat.eqb_neq in Ne.
  destruct (C71_gain_exact H o (l_s x) L false false false u coin 0 hn from to g ST Hu Pu E ltac:(congruence)) as [CT G].
  rewrite K in CT. pose proof CT as (Ht & _ & Cap).
  destruct (chg_ok u (l_s x) hn from to R Hu Pu Ne Ht Cap) as (s1 & sus & E1 & R1 & P1 & S1). rewrite E1, orb_true_r.
  replace (l_d x + sumZ gain_of sus - l_d x) with (sumZ gain_of sus) by lia. rewrite S1, <- G, Z.eqb_refl. cbn [orb].
  eexists. exists true. split; [reflexivity|]. cbn [l_s l_d l_n]. split; [exact R1|]. split; [discriminate|]. intros _. split; [exact B|]. split; [reflexivity|]. split; [rewrite P1; lia|].
  split; [|exists to; split; [exact CT|exact P1]].
  unfold perform_move in Pm. apply orb_true_iff in Pm. destruct Pm as [Pm|Pm]; [lia|]. apply andb_true_iff in Pm. destruct Pm as [Pm _]. apply andb_true_iff in Pm. destruct Pm as [Pm _]. apply andb_true_iff in Pm. destruct Pm as [_ Pm]. lia.
Qed.
Lemma activate_true_nodes P x hn : wf_hg H -> In hn (nodes H) -> incl (nx x) (nodes H) -> incl (nx (activateNN H mu thr true P x hn)) (nodes H).
Proof.
  intros WF Hh. unfold activateNN. cbn [andb].
  assert (A1 : forall y v, In v (nodes H) -> incl (nx y) (nodes H) -> incl (nx (activate1 mu true P y v)) (nodes H)).
  { intros y v Hv I. unfold activate1. cbn [orb]. destruct (inx y v); [exact I|]. cbn [nx]. intros w Hw. apply in_app_or in Hw. destruct Hw as [Hw|[<-|[]]]; [apply I; exact Hw|exact Hv]. }
  assert (A2 : forall l y, incl l (nodes H) -> incl (nx y) (nodes H) -> incl (nx (fold_left (activate1 mu true P) l y)) (nodes H)).
  { induction l as [|v l IH]; intros y S I; cbn [fold_left]; [exact I|]. apply IH; [intros w Hw; apply S; right; exact Hw|]. apply A1; [apply S; left; reflexivity|exact I]. }
  assert (A3 : forall l y, incl l (edges H) -> incl (nx y) (nodes H) -> incl (nx (fold_left (activate_edge H mu thr true P) l y)) (nodes H)).
  { induction l as [|e l IH]; intros y S I; cbn [fold_left]; [exact I|]. apply IH; [intros w Hw; apply S; right; exact Hw|]. unfold activate_edge. destruct (_ && _); [|exact I]. cbn [nx].
    apply A2; [|exact I]. intros v Hv. apply (wf_pins_nodes H WF e v); [apply S; left; reflexivity|exact Hv]. }
  intros I. assert (Y : incl (nx (fold_left (activate_edge H mu thr true P) (inc H hn) x)) (nodes H)) by (apply A3; [intros e He; apply (wf_inc H WF hn e Hh); exact He|exact I]).
  destruct (negb _); [|exact Y]. cbn [nx]. intros w Hw. apply in_app_or in Hw. destruct Hw as [Hw|[<-|[]]]; [apply Y; exact Hw|exact Hh].
Qed.
Lemma move_nodes_ok u l : forall x, rd (l_s x) -> incl (map fst l) (nodes H) -> exists x' m, move_nodes u x l = Some (x', m) /\ rd (l_s x') /\
  l_d x' - l_d x = obj (part (l_s x')) - obj (part (l_s x)) /\ l_d x' <= l_d x /\ incl m (map fst l) /\
  (forall v, part (l_s x') v <> part (l_s x) v -> In v m) /\ (forall v, fixed v = true -> part (l_s x') v = part (l_s x) v) /\
  (u = true -> l_n x' = l_n x) /\
  (u = false -> (forall b, (b < k)%nat -> block_weight H (part (l_s x')) b <= Z.max (L b) (block_weight H (part (l_s x)) b)) /\ (incl (nx (l_n x)) (nodes H) -> incl (nx (l_n x')) (nodes H))).
Proof.
  induction l as [|[hn coin] l IH]; intros x R S; cbn [move_nodes].
  - exists x, []. split; [reflexivity|]. split; [exact R|]. split; [lia|]. split; [lia|]. split; [intros v []|]. split; [congruence|]. split; [reflexivity|]. split; [reflexivity|]. intros _. split; [intros; lia|tauto].
  - cbn [map fst] in S. assert (Hu : In hn (nodes H)) by (apply S; left; reflexivity). pose proof R as [(WF & _) _].
    destruct (moveVertex_ok u x hn coin R Hu) as (x1 & b & E1 & R1 & B0 & B1). rewrite E1.
    destruct (IH x1 R1 ltac:(intros v Hv; apply S; right; exact Hv)) as (x2 & m & E2 & R2 & D2 & M2 & I2 & C2 & F2 & U2 & W2). rewrite E2.
    exists x2, (if b then hn :: m else m). split; [reflexivity|]. split; [exact R2|].
    destruct b.
    + destruct (B1 eq_refl) as (Fh & N1 & D1 & M1 & to & CT & P1). split; [lia|]. split; [lia|].
      split; [intros v [<-|Hv]; [left; reflexivity|right; apply I2; exact Hv]|].
      assert (Pv : forall v, v <> hn -> part (l_s x1) v = part (l_s x) v) by (intros v Nv; rewrite P1; unfold move; apply upd_other; exact Nv).
      split; [intros v Hv; destruct (Nat.eq_dec v hn) as [->|Nv]; [left; reflexivity|right; apply C2; rewrite (Pv v Nv); exact Hv]|].
      split; [intros v Hv; rewrite (F2 v Hv); apply Pv; congruence|].
      split; [intros U; rewrite (U2 U), N1, U; reflexivity|]. intros U. destruct (W2 U) as [W3 W4]. split.
      * intros b Hb. specialize (W3 b Hb). rewrite P1, block_weight_move in W3 by (try apply WF; assumption). pose proof (Wn hn Hu). destruct CT as (Ht & Nt & Cap). destruct Cap as [Cap|Cap]; [congruence|].
        destruct (Nat.eqb_spec to b) as [->|Nb]; [|destruct (in_block (part (l_s x)) b hn); lia]. unfold in_block in W3. destruct (part (l_s x) hn) as [c|]; [|lia]. destruct (Nat.eqb c b); lia.
      * intros I. apply W4. rewrite N1, U. apply activate_true_nodes; assumption.
    + rewrite (B0 eq_refl) in *. split; [exact D2|]. split; [exact M2|]. split; [intros v Hv; right; apply I2; exact Hv|]. tauto.
Qed.
Theorem sphase_good : phase_good H k L o fixed false sphase.
Proof.
  assert (X : forall u act s x s' d mvd y, sphase u act s x s' d mvd y -> rd s -> incl act (nodes H) ->
    rd s' /\ d = obj (part s') - obj (part s) /\ d <= 0 /\ incl mvd act /\ (forall v, part s' v <> part s v -> In v mvd) /\ (forall v, fixed v = true -> part s' v = part s v) /\
    (u = true -> y = x) /\ (u = false -> (forall b, (b < k)%nat -> block_weight H (part s') b <= Z.max (L b) (block_weight H (part s) b)) /\ (incl (nx x) (nodes H) -> incl (nx y) (nodes H)))).
  { intros u act s x s' d mvd y (sh & Pm & E) R S. destruct (move_nodes_ok u sh (mkP s 0 x) R) as (x' & m & E' & A); [intros v Hv; apply S; rewrite <- Pm; exact Hv|].
    rewrite E in E'. injection E' as <- <-. cbn [l_s l_d l_n] in A. destruct A as (A1 & A2 & A3 & A4 & A5 & A6 & A7 & A8). split; [exact A1|]. split; [lia|]. split; [lia|]. split; [intros v Hv; rewrite <- Pm; apply A4; exact Hv|]. tauto. }
  split.
  - intros u act s x s' d mvd y PH R S _. destruct (X _ _ _ _ _ _ _ _ PH R S) as (A1 & A2 & A3 & A4 & A5 & A6 & A7). tauto.
  - intros act s x s' d mvd y PH R S _. destruct (X _ _ _ _ _ _ _ _ PH R S) as (A1 & A2 & A3 & A4 & A5 & A6 & A7 & A8). auto.
  - intros act s x s' d mvd y PH R S _. destruct (X _ _ _ _ _ _ _ _ PH R S) as (A1 & A2 & A3 & A4 & A5 & A6 & A7 & A8). destruct (A8 eq_refl) as [B1 B2]. split; [exact B1|].
    intros E. split; [apply B2; rewrite E; intros v []|discriminate].
Qed.
Theorem sphase_mono : phase_mono H k false sphase.
Proof.
  intros u act s x s' d mvd y (sh & Pm & E) R S _. destruct (move_nodes_ok u sh (mkP s 0 x) R) as (x' & m & E' & A); [intros v Hv; apply S; rewrite <- Pm; exact Hv|].
  rewrite E in E'. injection E' as <- <-. cbn [l_s l_d l_n] in A. lia.
Qed.
(** The loop always ends: no move is undefined. *)
Theorem sphase_total u act s x : rd s -> incl act (nodes H) -> exists s' d mvd y, sphase u act s x s' d mvd y.
Proof.
  intros R S. destruct (move_nodes_ok u (map (fun v => (v, fun _ => false)) act) (mkP s 0 x) R) as ([s' d y] & m & E & _).
  { rewrite map_map. cbn [fst]. rewrite map_id. exact S. }
  exists s', d, m, y, (map (fun v => (v, fun _ => false)) act). split; [rewrite map_map; cbn [fst]; rewrite map_id; reflexivity|exact E].
Qed.
Theorem srollb_good : rollb_good H k srollb.
Proof.
  intros l. unfold srollb. induction l as [|v l IH]; intros od s s' E R S V; cbn [fold_opt] in E.
  - injection E as <-. split; [exact R|]. reflexivity.
  - destruct (roll1 od s v) as [s1|] eqn:E1; [|discriminate]. assert (Hv : In v (nodes H)) by (apply S; left; reflexivity). destruct (V v (or_introl eq_refl)) as (b & Eb & Lb).
    assert (X : rd s1 /\ part s1 v = od v /\ forall w, w <> v -> part s1 w = part s w).
    { unfold roll1 in E1. destruct (opt_eqb (part s v) (od v)) eqn:Q.
      - injection E1 as <-. apply opt_eqb_eq in Q. auto.
      - pose proof R as [(WF & C & HC) K]. destruct (HC v Hv) as (a & Ea & La). rewrite Ea, Eb in *. cbn [opt_eqb] in Q. apply Nat.eqb_neq in Q.
        destruct (chg_ok true s v a b R Hv Ea Q Lb (or_introl eq_refl)) as (s2 & sus & E2 & R2 & P2 & _). rewrite E2 in E1. injection E1 as <-. rewrite P2. split; [exact R2|]. unfold move. split; [apply upd_same|intros w Nw; apply upd_other; exact Nw]. }
    destruct X as (R1 & Pv & Po). destruct (IH od s1 s' E R1 ltac:(intros w Hw; apply S; right; exact Hw) ltac:(intros w Hw; apply V; right; exact Hw)) as [R' P']. split; [exact R'|].
    intros w. rewrite P'. unfold mem. cbn [existsb]. fold (mem w l). destruct (mem w l); [rewrite orb_true_r; reflexivity|]. rewrite orb_false_r. destruct (Nat.eqb_spec w v) as [->|Nw]; [exact Pv|apply Po; exact Nw].
Qed.
Theorem srollb_total l : forall od s, rd s -> incl l (nodes H) -> (forall v, In v l -> exists b, od v = Some b /\ (b < k)%nat) -> exists s', srollb l od s s'.
Proof.
  unfold srollb. induction l as [|v l IH]; intros od s R S V; cbn [fold_opt]; [exists s; reflexivity|]. assert (Hv : In v (nodes H)) by (apply S; left; reflexivity). destruct (V v (or_introl eq_refl)) as (b & Eb & Lb).
  assert (X : exists s1, roll1 od s v = Some s1 /\ rd s1).
  { unfold roll1. destruct (opt_eqb (part s v) (od v)) eqn:Q; [exists s; auto|]. pose proof R as [(WF & C & HC) K]. destruct (HC v Hv) as (a & Ea & La). rewrite Ea, Eb in *. cbn [opt_eqb] in Q. apply Nat.eqb_neq in Q.
    destruct (chg_ok true s v a b R Hv Ea Q Lb (or_introl eq_refl)) as (s2 & sus & E2 & R2 & P2 & _). rewrite E2. exists s2. auto. }
  destruct X as (s1 & -> & R1). apply IH; [exact R1|intros w Hw; apply S; right; exact Hw|intros w Hw; apply V; right; exact Hw].
Qed.
End Seq.

(** The rebalancer of C61 run by any number of threads under any schedule. *)
Definition rebalancer (H : hypergraph) (L : nat -> Z) (o : objective) (fixed : nat -> bool) (s : phg) (q : Z) (s' : phg) (q' : Z) (ms : list mv) : Prop :=
  exists n cu c st, reb_reach H n cu L s c fixed st /\ joined n st /\ s' = sh (rc st) /\ q' = q + gain_sum (gain_of o) st /\ ms = moves_linear st.
Theorem rebalancer_good H k L o fixed : (forall v, In v (nodes H) -> 0 <= nw H v) -> rb_good H k o fixed (rebalancer H L o fixed).
Proof.
  intros Wn s q s' q' ms (n & cu & c & st & RR & J & -> & -> & ->) [ST K].
  destruct (C61_rebalancer H n cu L s c fixed st ST Wn RR J) as (S1 & S2 & S3 & _ & _ & _ & G1 & G2 & G3).
  destruct (C61_reported_moves H n cu L s c fixed st ST Wn RR J) as (M1 & M2 & M3 & _).
  split; [split; [exact S1|congruence]|]. split; [destruct o; cbn [gain_of obj_spec]; lia|]. split; [exact M1|].
  split; [|split; [exact M3|]].
  - intros m Hm. destruct (M2 m Hm) as (A & B & Ne). split; [|exact A]. apply S3. congruence.
  - intros v Fv. destruct (part (sh (rc st)) v) as [a|] eqn:E1, (part s v) as [b|] eqn:E2; try reflexivity.
    + destruct (Nat.eq_dec a b) as [->|N]; [reflexivity|]. exfalso. destruct (S3 v) as (_ & X & _); congruence.
    + exfalso. destruct (S3 v) as (_ & X & _); congruence.
    + exfalso. destruct (S3 v) as (_ & X & _); congruence.
Qed.
