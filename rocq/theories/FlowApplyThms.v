(** FlowApplyThms.v - C75: flow-based refinement never makes the objective worse and never overloads a block. *)
From Coq Require Import FunctionalExtensionality.
From Verif Require Import Base Spec SpecLemmas PHG PHGProofs Objective GainCache GainCacheProofs Metrics PropsA Conc Scan DetLP DetLPThms Interleave SeqRollback LPSeq FlowApply.

(** What a flow search hands over: every node once, existing nodes and blocks. *)
Definition valid_seq (H : hypergraph) (k : nat) (sq : list (nat * nat)) : Prop :=
  NoDup (map fst sq) /\ forall u t, In (u, t) sq -> In u (nodes H) /\ (t < k)%nat.

Section Thms.
Variables (H : hypergraph) (k : nat) (o : objective) (gcu : bool) (G : gain_policy).
Hypotheses (Wn : forall v, In v (nodes H) -> 0 <= nw H v) (Wt : total_weight H <= MAXW).
Local Notation rd := (ready H k).
Local Notation obj := (obj_spec o H).
Local Notation bw := (block_weight H).
Local Notation ok3 P l := (Forall (fun m => In (fst (fst m)) (nodes H) /\ P (fst (fst m)) = Some (snd (fst m)) /\ (snd (fst m) < k)%nat /\ (snd m < k)%nat) l).
Local Notation tgt := (map (fun m : nat * nat * nat => (fst (fst m), snd m))).
Local Notation src := (map (fun m : nat * nat * nat => (fst (fst m), snd (fst m)))).
Local Notation nds := (map (fun m : nat * nat * nat => fst (fst m))).

Lemma set_from_ok s sq : rd s -> valid_seq H k sq -> exists l, set_from s sq = Some l /\ tgt l = sq /\ ok3 (part s) l /\ NoDup (nds l).
Proof.
  intros [(WF & C & HC) K] [ND V].
  assert (E : exists l, set_from s sq = Some l /\ tgt l = sq /\ ok3 (part s) l).
  { clear ND. induction sq as [|[u t] sq IH]; [exists []; cbn; auto|].
    destruct IH as (l & E & T & F); [intros u' t' I; apply V; right; exact I|].
    destruct (V u t (or_introl eq_refl)) as [Hu Ht]. destruct (HC u Hu) as (f & Pu & Hf).
    exists ((u, f, t) :: l). cbn [set_from]. rewrite Pu, E. split; [reflexivity|]. split; [cbn; rewrite T; reflexivity|].
    constructor; [cbn; rewrite <- K; auto using Hf|exact F]. split; [exact Hu|]. split; [exact Pu|]. split; [lia|]. rewrite K; exact Ht. }
  destruct E as (l & E & T & F). exists l. split; [exact E|]. split; [exact T|]. split; [exact F|].
  replace (nds l) with (map fst (tgt l)) by (rewrite map_map; reflexivity). rewrite T. exact ND.
Qed.

Lemma ok3_move P u t l : ok3 P l -> ~ In u (nds l) -> ok3 (move P u t) l.
Proof.
  intros F N. rewrite Forall_forall in *. intros m Hm. destruct (F m Hm) as (A & B & C). split; [exact A|]. split; [|exact C].
  unfold move, upd. destruct (Nat.eqb_spec (fst (fst m)) u) as [E|E]; [|exact B]. exfalso. apply N. rewrite <- E. apply (in_map (fun m => fst (fst m))). exact Hm.
Qed.
Lemma move_self P u b : P u = Some b -> move P u b = P.
Proof. intros E. apply functional_extensionality. intros v. unfold move, upd. destruct (Nat.eqb_spec v u) as [->|]; congruence. Qed.

Lemma deltas_ok l : wf_hg H -> forall P d b, ok3 P l -> NoDup (nds l) ->
  fold_left (delta_step H) l d b = d b + (bw (moves P (tgt l)) b - bw P b).
Proof.
  intros WF. induction l as [|[[u f] t] l IH]; intros P d b F N; [cbn; lia|].
  inversion F as [|? ? (Hu & Pu & Hf & Ht) F']; subst. inversion N as [|? ? Nu N']; subst. cbn [fst snd] in *. cbn [fold_left map fst snd moves].
  change (fold_left (fun Q m => move Q (fst m) (snd m)) (tgt l) (move P u t)) with (moves (move P u t) (tgt l)).
  rewrite (IH (move P u t)) by (try apply ok3_move; assumption). rewrite (block_weight_move H P u t b (wf_nodes H WF) Hu).
  unfold delta_step, in_block, upd. rewrite Pu.
  destruct (Nat.eqb_spec f t) as [->|Ne].
  - destruct (Nat.eqb t b); cbn; lia.
  - destruct (Nat.eqb_spec t b) as [->|]; destruct (Nat.eqb_spec f b) as [->|]; try congruence; cbn [Z.b2z];
      repeat match goal with |- context [Nat.eqb ?x ?y] => destruct (Nat.eqb_spec x y); try congruence end; lia.
Qed.

Lemma undo_spec m d i : forall pw j, undo m d pw i j = if (j <? i)%nat then pw j - m * d j else pw j.
Proof.
  induction i as [|i IH]; intros pw j; [reflexivity|]. cbn [undo]. rewrite IH. unfold upd.
  destruct (Nat.ltb_spec j i); destruct (Nat.ltb_spec j (S i)); destruct (Nat.eqb_spec j i); subst; lia.
Qed.
Lemma pwu_spec m d mx pw0 n : forall i pw r b, pwu_from n i m d mx pw = (r, b) -> (forall j, pw j = if (j <? i)%nat then pw0 j + m * d j else pw0 j) ->
  (b = true /\ (forall j, (i <= j < i + n)%nat -> pw0 j + m * d j <= mx j) /\ forall j, r j = if (j <? i + n)%nat then pw0 j + m * d j else pw0 j) \/
  (b = false /\ (exists j, (i <= j < i + n)%nat /\ mx j < pw0 j + m * d j) /\ forall j, r j = pw0 j).
Proof.
  induction n as [|n IH]; intros i pw r b E I; cbn [pwu_from] in E.
  - injection E as <- <-. left. split; [reflexivity|]. split; [intros; lia|]. intros j. rewrite I, Nat.add_0_r. reflexivity.
  - rewrite (I i) in E. rewrite Nat.ltb_irrefl in E. destruct (Z.ltb_spec (mx i) (pw0 i + m * d i)) as [Gt|Le].
    + injection E as <- <-. right. split; [reflexivity|]. split; [exists i; split; [lia|exact Gt]|].
      intros j. rewrite undo_spec, I. destruct (j <? i)%nat; lia.
    + apply IH in E.
      * destruct E as [(-> & A & B)|(-> & (j & A1 & A2) & B)].
        -- left. split; [reflexivity|]. split; [|intros j; rewrite B; replace (S i + n)%nat with (i + S n)%nat by lia; reflexivity].
           intros j Hj. destruct (Nat.eq_dec j i) as [->|]; [exact Le|apply A; lia].
        -- right. split; [reflexivity|]. split; [exists j; split; [lia|exact A2]|exact B].
      * intros j. unfold upd. destruct (Nat.eqb_spec j i) as [->|].
        -- rewrite (proj2 (Nat.ltb_lt i (S i))) by lia. reflexivity.
        -- rewrite I. destruct (Nat.ltb_spec j i); destruct (Nat.ltb_spec j (S i)); lia.
Qed.

Lemma delta_func_fold sus : forall i n, fold_left (delta_func o) sus (i, n) =
  (i - sumZ (gain_of o) sus, n ++ map (fun su => (su_he su, None)) (filter (fun su => su_to_after su =? 1) sus)).
Proof.
  induction sus as [|su sus IH]; intros i n; [cbn; rewrite app_nil_r, Z.sub_0_r; reflexivity|].
  cbn [fold_left]. unfold delta_func at 2. cbn [fst snd]. rewrite IH. cbn [sumZ filter]. f_equal; [lia|].
  destruct (su_to_after su =? 1); [cbn [map]; rewrite <- app_assoc; reflexivity|reflexivity].
Qed.

Definition new_hes (P : partition) (u to : nat) : list nat := filter (fun e => pin_count H P e to =? 0) (inc H u).

Lemma chgF_ok x u from to : rd (a_s x) -> In u (nodes H) -> part (a_s x) u = Some from -> from <> to -> (to < k)%nat ->
  exists x1, chgF H o gcu G x u from to = Some x1 /\ rd (a_s x1) /\ part (a_s x1) = move (part (a_s x)) u to /\
    a_imp x1 = a_imp x + (obj (part (a_s x)) - obj (move (part (a_s x)) u to)) /\ a_wm x1 = a_wm x /\
    a_nch x1 = a_nch x ++ map (fun e => (e, None)) (new_hes (part (a_s x)) u to) /\
    (gcu = true -> forall d, gc_step G H (a_s x, a_c x, d) (GMove u from to MAXW) = Some (a_s x1, a_c x1, u :: d)) /\ (gcu = false -> a_c x1 = a_c x).
Proof.
  intros R Hu Pu Ne Ht. pose proof R as [(WF & C & HC) K]. set (s := a_s x) in *.
  assert (Hw : wt s to + nw H u <= MAXW).
  { rewrite (c_wt H s C to) by lia.
    pose proof (block_weight_le_total H Wn (move (part s) u to) to) as X. rewrite block_weight_move in X by (try apply WF; assumption).
    unfold in_block in X. rewrite Pu, Nat.eqb_refl in X. rewrite (proj2 (Nat.eqb_neq from to) Ne) in X. cbn in X. lia. }
  destruct (change_accept H WF s u from to MAXW C Hu Pu Ne ltac:(lia) Hw) as (s1 & E & C1 & K1 & P1).
  unfold chgF. fold s. rewrite E. eexists. split; [reflexivity|]. cbn [a_s a_c a_imp a_nch a_wm].
  rewrite delta_func_fold. cbn [fst snd].
  pose proof (attributed H k o s u from to R Hu Pu Ne Ht) as AT. rewrite AT.
  split; [|split; [exact P1|split; [lia|split; [reflexivity|split; [|split]]]]].
  - split; [|lia]. split; [exact WF|]. split; [exact C1|]. rewrite P1, K1. apply complete_move; [exact HC|lia].
  - f_equal. unfold new_hes. clear AT E. induction (inc H u) as [|e l IH]; [reflexivity|]. cbn [map filter su_to_after].
    replace (pin_count H (part s) e to + 1 =? 1) with (pin_count H (part s) e to =? 0) by (destruct (Z.eqb_spec (pin_count H (part s) e to) 0); destruct (Z.eqb_spec (pin_count H (part s) e to + 1) 1); lia).
    destruct (pin_count H (part s) e to =? 0); cbn [map su_he]; rewrite IH; reflexivity.
  - intros -> d. cbn [gc_step]. unfold changeNodePartGC. rewrite E. reflexivity.
  - intros ->. reflexivity.
Qed.

Lemma set_blocks_ok b l es : Forall (fun p => snd p <> None) l -> set_blocks b (l ++ map (fun e => (e, None)) es) = l ++ map (fun e => (e, Some b)) es.
Proof.
  intros F. unfold set_blocks. rewrite rev_app_distr.
  assert (A : forall r, set_trailing b (rev r) = rev (map (fun p : nat * option nat => (fst p, match snd p with None => Some b | s => s end)) r) -> set_trailing b (rev r ++ rev l) = set_trailing b (rev r) ++ rev l \/ True) by auto.
  clear A. rewrite <- map_rev. 
  assert (B : forall q, set_trailing b (map (fun e => (e, None)) q ++ rev l) = map (fun e => (e, Some b)) q ++ rev l).
  { induction q as [|e q IH]; cbn [map app set_trailing]; [|rewrite IH; reflexivity].
    apply Forall_rev in F. destruct (rev l) as [|[e [c|]] r]; [reflexivity|reflexivity|]. inversion F; subst. cbn in *. congruence. }
  rewrite B, rev_app_distr, rev_involutive, <- map_rev, rev_involutive. reflexivity.
Qed.

Definition covers (P0 P : partition) (n : list (nat * option nat)) : Prop :=
  forall e b, In e (edges H) -> pin_count H P0 e b = 0 -> 0 < pin_count H P e b -> In (e, Some b) n.
Definition sound (n : list (nat * option nat)) : Prop :=
  Forall (fun p => In (fst p) (edges H) /\ exists b, snd p = Some b /\ (b < k)%nat) n.

Lemma apply_ok l : forall x, rd (a_s x) -> ok3 (part (a_s x)) l -> NoDup (nds l) -> sound (a_nch x) ->
  exists y, applyMoveSequence H o gcu G x l = Some y /\ rd (a_s y) /\ part (a_s y) = moves (part (a_s x)) (tgt l) /\
    a_imp y = a_imp x + (obj (part (a_s x)) - obj (part (a_s y))) /\
    incl (a_wm x) (a_wm y) /\ (forall u f t, In (u, f, t) l -> f <> t -> In u (a_wm y)) /\ (forall u, In u (a_wm y) -> In u (a_wm x) \/ In u (nds l)) /\
    sound (a_nch y) /\ (forall P0, covers P0 (part (a_s x)) (a_nch x) -> covers P0 (part (a_s y)) (a_nch y)) /\
    (gcu = true -> forall d, exists tr d', gc_run G H (a_s x, a_c x, d) tr = Some (a_s y, a_c y, d') /\ Forall (gc_op_ok H) tr /\ (forall u, In u d' -> In u d \/ In u (a_wm y))) /\
    (gcu = false -> a_c y = a_c x).
Proof.
  induction l as [|[[u f] t] l IH]; intros x R F N SN.
  - exists x. cbn. split; [reflexivity|]. split; [exact R|]. split; [reflexivity|]. split; [lia|]. split; [apply incl_refl|]. split; [tauto|]. split; [tauto|]. split; [exact SN|]. split; [auto|].
    split; [|reflexivity]. intros _ d. exists [], d. split; [reflexivity|]. split; [constructor|tauto].
  - inversion F as [|? ? (Hu & Pu & Hf & Ht) F']; subst. inversion N as [|? ? Nu N']; subst. cbn [fst snd] in *. cbn [applyMoveSequence].
    destruct (Nat.eqb_spec f t) as [->|Ne].
    + destruct (IH x R F' N' SN) as (y & E & Ry & Py & Iy & W1 & W2 & W3 & SY & CV & GC & GC2).
      exists y. split; [exact E|]. split; [exact Ry|]. split; [cbn; rewrite (move_self _ _ _ Pu); exact Py|]. split; [exact Iy|]. split; [exact W1|].
      split; [intros u' f' t' [X|X] Y; [congruence|eapply W2; eauto]|]. split; [intros u' X; destruct (W3 u' X); cbn; auto|]. repeat split; assumption.
    + destruct (chgF_ok x u f t R Hu Pu Ne Ht) as (x1 & E1 & R1 & P1 & I1 & W1 & N1 & GC1 & GC1b). rewrite E1.
      pose proof R as [(WF & C & HC) K].
      set (x2 := mkA (a_s x1) (a_c x1) (a_imp x1) (set_blocks t (a_nch x1)) (u :: a_wm x1)).
      assert (NB : a_nch x2 = a_nch x ++ map (fun e => (e, Some t)) (new_hes (part (a_s x)) u t)).
      { cbn. rewrite N1. apply set_blocks_ok. unfold sound in SN. rewrite Forall_forall in *. intros p Hp. destruct (SN p Hp) as (_ & b & -> & _). discriminate. }
      assert (S2 : sound (a_nch x2)).
      { rewrite NB. apply Forall_app. split; [exact SN|]. rewrite Forall_forall. intros p Hp. apply in_map_iff in Hp. destruct Hp as (e & <- & He).
        apply filter_In in He. destruct He as [He _]. apply (wf_inc H WF u e Hu) in He. cbn. split; [tauto|]. exists t. tauto. }
      destruct (IH x2) as (y & E & Ry & Py & Iy & V1 & V2 & V3 & SY & CV & GC & GC2); [exact R1| |exact N'|exact S2|].
      { cbn. rewrite P1. apply ok3_move; assumption. }
      exists y. split; [exact E|]. split; [exact Ry|]. cbn [a_s a_c a_imp a_wm x2] in *. split; [rewrite Py, P1; reflexivity|].
      split; [rewrite Iy, I1, P1; lia|]. split; [intros v Hv; apply V1; right; rewrite W1; exact Hv|].
      split; [intros u' f' t' [X|X] Y; [injection X as <- <- <-; apply V1; left; reflexivity|eapply V2; eauto]|].
      split; [intros v Hv; destruct (V3 v Hv) as [[<-|X]|X]; cbn; [auto|rewrite W1 in X; auto|auto]|].
      split; [exact SY|]. split; [|split].
      * intros P0 CP. apply CV. intros e b He Z0 Pos. rewrite NB. apply in_or_app.
        destruct (Z.eq_dec (pin_count H (part (a_s x)) e b) 0) as [Ez|Enz].
        -- right. rewrite P1, (pin_count_move H (part (a_s x)) u t e b (wf_pins_nodup H WF e He)), Ez in Pos.
           unfold in_block in Pos. rewrite Pu in Pos. destruct (mem u (pins H e)) eqn:M; cbn in Pos; [|lia].
           destruct (Nat.eqb_spec t b) as [->|]; [|destruct (Nat.eqb f b); cbn in Pos; lia].
           apply in_map_iff. exists e. split; [reflexivity|]. apply filter_In. split; [|apply Z.eqb_eq; exact Ez].
           apply (wf_inc H WF u e Hu). split; [exact He|]. apply mem_In. exact M.
        -- left. apply CP; [exact He|exact Z0|]. unfold pin_count in *. lia.
      * intros Hg d. destruct (GC Hg (u :: d)) as (tr & d' & T1 & T2 & T3). exists (GMove u f t MAXW :: tr), d'. split; [|split].
        -- unfold gc_run. cbn [fold_opt]. rewrite (GC1 Hg d). exact T1.
        -- constructor; [exact Hu|exact T2].
        -- intros v Hv. destruct (T3 v Hv) as [[<-|X]|X]; [right; apply V1; left; reflexivity|auto|auto].
      * intros Hg. rewrite (GC2 Hg). auto.
Qed.

Lemma revert_ok l : forall x, rd (a_s x) -> ok3 (part (a_s x)) (map (fun m => (fst (fst m), snd m, snd (fst m))) l) -> NoDup (nds l) ->
  (forall u f t, In (u, f, t) l -> f <> t -> In u (a_wm x)) ->
  exists y, revertMoveSequence H o gcu G x l = Some y /\ rd (a_s y) /\ part (a_s y) = moves (part (a_s x)) (src l) /\
    a_imp y = a_imp x + (obj (part (a_s x)) - obj (part (a_s y))) /\ a_wm y = a_wm x /\
    (gcu = true -> forall d, exists tr d', gc_run G H (a_s x, a_c x, d) tr = Some (a_s y, a_c y, d') /\ Forall (gc_op_ok H) tr /\ (forall u, In u d' -> In u d \/ In u (a_wm y))) /\
    (gcu = false -> a_c y = a_c x).
Proof.
  induction l as [|[[u f] t] l IH]; intros x R F N W.
  - exists x. cbn. split; [reflexivity|]. split; [exact R|]. split; [reflexivity|]. split; [lia|]. split; [reflexivity|]. 
    split; [|reflexivity]. intros _ d. exists [], d. split; [reflexivity|]. split; [constructor|tauto].
  - inversion F as [|? ? (Hu & Pu & Ht & Hf) F']; subst. inversion N as [|? ? Nu N']; subst. cbn [fst snd] in *. cbn [revertMoveSequence].
    destruct (Nat.eqb_spec f t) as [->|Ne].
    + destruct (IH x R F' N') as (y & E & Ry & Py & Iy & W1 & GC & GC2); [intros; eapply W; [right; eauto|eauto]|].
      exists y. split; [exact E|]. split; [exact Ry|]. split; [cbn; rewrite (move_self _ _ _ Pu); exact Py|]. repeat split; assumption.
    + destruct (chgF_ok x u t f R Hu Pu ltac:(congruence) Hf) as (x1 & E1 & R1 & P1 & I1 & W1 & N1 & GC1 & GC1b). rewrite E1.
      destruct (IH x1) as (y & E & Ry & Py & Iy & V1 & GC & GC2); [exact R1| |exact N'|rewrite W1; intros; eapply W; [right; eauto|eauto]|].
      { rewrite P1. apply ok3_move; [exact F'|]. rewrite map_map. cbn. exact Nu. }
      exists y. split; [exact E|]. split; [exact Ry|]. split; [rewrite Py, P1; reflexivity|].
      split; [rewrite Iy, I1, P1; lia|]. split; [congruence|]. split.
      * intros Hg d. destruct (GC Hg (u :: d)) as (tr & d' & T1 & T2 & T3). exists (GMove u t f MAXW :: tr), d'. split; [|split].
        -- unfold gc_run. cbn [fold_opt]. rewrite (GC1 Hg d). exact T1.
        -- constructor; [exact Hu|exact T2].
        -- intros v Hv. destruct (T3 v Hv) as [[<-|X]|X]; [right; rewrite V1, W1; apply (W u f t (or_introl eq_refl) Ne)|auto|auto].
      * intros Hg. rewrite (GC2 Hg). auto.
Qed.

Lemma moves_back l : forall P, ok3 P l -> NoDup (nds l) -> moves (moves P (tgt l)) (src l) = P.
Proof.
  intros P F N. apply functional_extensionality. intros v.
  destruct (in_dec Nat.eq_dec v (nds l)) as [I|I].
  - apply in_map_iff in I. destruct I as ([[u f] t] & E & I). cbn in E. subst u. rewrite Forall_forall in F. destruct (F _ I) as (_ & Pv & _). cbn in Pv.
    rewrite Pv. apply moves_in; [rewrite map_map; exact N|]. apply in_map_iff. exists (v, f, t). split; [reflexivity|exact I].
  - rewrite !moves_out by (rewrite map_map; exact I). reflexivity.
Qed.

(** *** One call *)
Record finv (st : fst_) : Prop := {
  fi_rd : rd (f_s st);
  fi_pw : forall b, (b < k)%nat -> f_pw st b = bw (part (f_s st)) b;
  fi_mx : forall b, (b < k)%nat -> bw (part (f_s st)) b <= f_mx st b
}.
Definition fits (mx : nat -> Z) (Q : partition) : Prop := forall b, (b < k)%nat -> bw Q b <= mx b.

(** The three possible outcomes, decided by the partition the sequence would lead to. *)
Definition outcome (st st' : fst_) (imp : Z) (stt : mstate) (nch : list (nat * option nat)) (Q : partition) : Prop :=
  let P := part (f_s st) in
  (stt = VIOLATES_BALANCE_CONSTRAINT /\ ~ fits (f_mx st) Q /\ f_s st' = f_s st /\ imp = 0) \/
  (stt = WORSEN_SOLUTION_QUALITY /\ fits (f_mx st) Q /\ obj P < obj Q /\ part (f_s st') = P /\ imp = 0) \/
  (stt = SUCCESS /\ fits (f_mx st) Q /\ obj Q <= obj P /\ part (f_s st') = Q /\ imp = obj P - obj Q /\ sound nch /\
   forall e b, In e (edges H) -> pin_count H P e b = 0 -> 0 < pin_count H Q e b -> In (e, Some b) nch).

Theorem applyMoves_ok st sq : finv st -> valid_seq H k sq ->
  exists st' imp stt nch, applyMoves H k o gcu G st sq = Some (st', imp, stt, nch) /\ finv st' /\ f_mx st' = f_mx st /\
    outcome st st' imp stt nch (moves (part (f_s st)) sq) /\ incl (f_wm st) (f_wm st') /\
    (gcu = true -> forall d, exists tr d', gc_run G H (f_s st, f_c st, d) tr = Some (f_s st', f_c st', d') /\ Forall (gc_op_ok H) tr /\ (forall u, In u d' -> In u d \/ In u (f_wm st'))) /\
    (gcu = false -> f_c st' = f_c st) /\ (forall u, In u (f_wm st') -> In u (f_wm st) \/ In u (map fst sq)).
Proof.
  intros [R PW MX] V. pose proof R as [(WF & C & HC) K].
  destruct (set_from_ok (f_s st) sq R V) as (l & E & T & F & N).
  assert (Tn : map fst sq = nds l) by (rewrite <- T, map_map; reflexivity).
  unfold applyMoves. rewrite E. set (d := part_weight_deltas H l).
  assert (D : forall b, d b = bw (moves (part (f_s st)) sq) b - bw (part (f_s st)) b).
  { intros b. unfold d, part_weight_deltas. rewrite (deltas_ok l WF (part (f_s st)) _ b F N), T. lia. }
  destruct (partWeightUpdate k d (f_mx st) (f_pw st) false) as [pw1 bal1] eqn:E1.
  unfold partWeightUpdate in E1. apply (pwu_spec 1 d (f_mx st) (f_pw st)) in E1; [|intros j; reflexivity].
  destruct E1 as [(-> & A & B)|(-> & (j & A1 & A2) & B)].
  2:{ eexists _, _, _, _. split; [reflexivity|]. cbn [f_s f_c f_wm f_pw f_mx]. split; [|split; [reflexivity|split; [|split; [apply incl_refl|split; [|split; [reflexivity|auto]]]]]].
      - constructor; cbn [f_s f_pw f_mx]; [exact R|intros b Hb; rewrite B; apply PW; exact Hb|exact MX].
      - left. split; [reflexivity|]. split; [|split; reflexivity]. intros Fi. specialize (Fi j ltac:(lia)). rewrite (PW j ltac:(lia)), D in A2. lia.
      - intros _ dd. exists [], dd. split; [reflexivity|]. split; [constructor|tauto]. }
  assert (FI : fits (f_mx st) (moves (part (f_s st)) sq)).
  { intros b Hb. specialize (A b ltac:(lia)). rewrite (PW b Hb), D in A. lia. }
  destruct (apply_ok l (mkA (f_s st) (f_c st) 0 [] (f_wm st)) R F N ltac:(constructor)) as (x & Ex & Rx & Px & Ix & W1 & W2 & W3 & SX & CV & GC & GC2).
  rewrite Ex. cbn [a_s a_c a_imp a_nch a_wm] in *. rewrite T in Px.
  destruct (Z.ltb_spec (a_imp x) 0) as [Neg|Pos].
  - destruct (partWeightUpdate k d (f_mx st) pw1 true) as [pw2 bal2] eqn:E2.
    unfold partWeightUpdate in E2. apply (pwu_spec (-1) d (f_mx st) pw1) in E2; [|intros j; reflexivity].
    destruct E2 as [(-> & A2 & B2)|(-> & (j & A2 & A3) & B2)].
    2:{ exfalso. rewrite B in A3. rewrite (proj2 (Nat.ltb_lt j (0 + k))) in A3 by lia. rewrite (PW j ltac:(lia)) in A3. specialize (MX j ltac:(lia)). lia. }
    destruct (revert_ok l x Rx) as (y & Ey & Ry & Py & Iy & Wy & GCy & GCy2); [|exact N|exact W2|].
    { rewrite Forall_forall in *. intros m Hm. apply in_map_iff in Hm. destruct Hm as ([[u f] t] & <- & Hm). destruct (F _ Hm) as (Q1 & Q2 & Q3 & Q4). cbn in *.
      split; [exact Q1|]. split; [|tauto]. rewrite Px. apply moves_in; [apply V|]. rewrite <- T. apply in_map_iff. exists (u, f, t). auto. }
    rewrite Ey. rewrite Px, <- T, (moves_back l (part (f_s st)) F N) in Py.
    eexists _, _, _, _. split; [reflexivity|]. cbn [f_s f_c f_wm f_pw f_mx]. split; [|split; [reflexivity|split; [|split; [rewrite Wy; exact W1|split; [|split]]]]].
    + constructor; cbn [f_s f_pw f_mx]; [exact Ry| |rewrite Py; exact MX]. intros b Hb. rewrite B2, B, Py.
      rewrite (proj2 (Nat.ltb_lt b (0 + k))) by lia. rewrite (PW b Hb). lia.
    + right. left. split; [reflexivity|]. split; [exact FI|]. split; [rewrite <- Px; lia|]. split; [exact Py|]. rewrite Iy, Py. lia.
    + intros Hg dd. destruct (GC Hg dd) as (tr & d1 & T1 & T2 & T3). destruct (GCy Hg d1) as (tr2 & d2 & U1 & U2 & U3).
      exists (tr ++ tr2), d2. split; [unfold gc_run in *; rewrite fold_opt_app, T1; exact U1|]. split; [apply Forall_app; auto|].
      intros u Hu. destruct (U3 u Hu) as [X|X]; [|auto]. destruct (T3 u X) as [Y|Y]; [auto|rewrite Wy; auto].
    + intros Hg. rewrite (GCy2 Hg). exact (GC2 Hg).
    + intros u Hu. rewrite Wy in Hu. rewrite Tn. apply W3. exact Hu.
  - eexists _, _, _, _. split; [reflexivity|]. cbn [f_s f_c f_wm f_pw f_mx]. split; [|split; [reflexivity|split; [|split; [exact W1|split; [exact GC|split; [exact GC2|]]]]]].
    + constructor; cbn [f_s f_pw f_mx]; [exact Rx| |rewrite Px; exact FI]. intros b Hb. rewrite B, Px.
      rewrite (proj2 (Nat.ltb_lt b (0 + k))) by lia. rewrite (PW b Hb), D. lia.
    + right. right. split; [reflexivity|]. split; [exact FI|]. rewrite Px in Ix. split; [lia|]. split; [exact Px|]. split; [lia|]. split; [exact SX|].
      rewrite Px in CV. intros e b He Z0 Pp. apply (CV (part (f_s st))); auto. intros e' b' _ Z1 Z2. lia.
    + intros u Hu. rewrite Tn. apply W3. exact Hu.
Qed.
End Thms.
