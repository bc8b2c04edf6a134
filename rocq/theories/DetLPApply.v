(** DetLPApply.v - executing a set of moves of distinct nodes concurrently. *)
From Coq Require Import FunctionalExtensionality.
From Verif Require Import Base Spec SpecLemmas PHG PHGProofs Conc ConcProofs ConcMore ConcRun Objective GainCache Metrics PropsA Scan Revert Prefixes DetLP.

(** The partition after the moves [ms]. *)
Definition after (P : partition) (ms : list lmv) : partition :=
  fun v => match find (fun m => Nat.eqb (ln m) v) ms with Some m => Some (lto m) | None => P v end.
Record legal (H : hypergraph) (k : nat) (P : partition) (ms : list lmv) : Prop := {
  lg_nodup : NoDup (map ln ms);
  lg_node : forall m, In m ms -> In (ln m) (nodes H);
  lg_from : forall m, In m ms -> P (ln m) = Some (lfrom m);
  lg_ne : forall m, In m ms -> lfrom m <> lto m;
  lg_to : forall m, In m ms -> (lto m < k)%nat
}.
Lemma find_node (ms : list lmv) m : NoDup (map ln ms) -> In m ms -> find (fun x => Nat.eqb (ln x) (ln m)) ms = Some m.
Proof.
  induction ms as [|a ms IH]; intros ND Hm; [destruct Hm|]. cbn [map] in ND. inversion ND as [|? ? Ha ND']; subst. cbn.
  destruct Hm as [->|Hm]; [rewrite Nat.eqb_refl; reflexivity|].
  destruct (Nat.eqb_spec (ln a) (ln m)) as [E|]; [exfalso; apply Ha; rewrite E; apply in_map; exact Hm|]. apply IH; assumption.
Qed.
Lemma find_none (ms : list lmv) v : ~ In v (map ln ms) -> find (fun x => Nat.eqb (ln x) v) ms = None.
Proof.
  induction ms as [|a ms IH]; intros Hv; [reflexivity|]. cbn. destruct (Nat.eqb_spec (ln a) v) as [E|]; [exfalso; apply Hv; left; exact E|].
  apply IH. intros X. apply Hv. right. exact X.
Qed.
Lemma after_in P ms m : NoDup (map ln ms) -> In m ms -> after P ms (ln m) = Some (lto m).
Proof. intros ND Hm. unfold after. rewrite (find_node ms m ND Hm). reflexivity. Qed.
Lemma after_out P ms v : ~ In v (map ln ms) -> after P ms v = P v.
Proof. intros Hv. unfold after. rewrite (find_none ms v Hv). reflexivity. Qed.
Lemma after_perm P ms ms' : NoDup (map ln ms) -> Permutation ms ms' -> after P ms = after P ms'.
Proof.
  intros ND HP. apply functional_extensionality. intros v.
  assert (ND' : NoDup (map ln ms')) by (apply (Permutation_NoDup (Permutation_map ln HP) ND)).
  destruct (in_dec Nat.eq_dec v (map ln ms)) as [Hv|Hv].
  - apply in_map_iff in Hv. destruct Hv as [m [<- Hm]]. rewrite after_in, after_in; auto. apply (Permutation_in m HP Hm).
  - rewrite (after_out P ms v Hv), after_out; [reflexivity|]. intros X. apply Hv. apply (Permutation_in v (Permutation_sym (Permutation_map ln HP)) X).
Qed.
Lemma legal_perm H k P ms ms' : Permutation ms ms' -> legal H k P ms -> legal H k P ms'.
Proof.
  intros HP [A B C D E]. assert (I : forall m, In m ms' -> In m ms) by (intros m; apply Permutation_in, Permutation_sym, HP).
  constructor; auto. apply (Permutation_NoDup (Permutation_map ln HP) A).
Qed.
Lemma legal_sub H k P ms ms' : NoDup (map ln ms') -> (forall m, In m ms' -> In m ms) -> legal H k P ms -> legal H k P ms'.
Proof. intros N I [A B C D E]. constructor; auto. Qed.
(** The inverse moves are legal afterwards and lead back. *)
Lemma lswap_map ms : map ln (map lswap ms) = map ln ms.
Proof. rewrite map_map. reflexivity. Qed.
Lemma legal_swap H k P ms : (forall v, In v (nodes H) -> exists b, P v = Some b /\ (b < k)%nat) -> legal H k P ms -> legal H k (after P ms) (map lswap ms).
Proof.
  intros HC [A B C D E]. constructor.
  - rewrite lswap_map. exact A.
  - intros m Hm. apply in_map_iff in Hm. destruct Hm as [x [<- Hx]]. apply (B x Hx).
  - intros m Hm. apply in_map_iff in Hm. destruct Hm as [x [<- Hx]]. cbn. apply after_in; assumption.
  - intros m Hm. apply in_map_iff in Hm. destruct Hm as [x [<- Hx]]. cbn. apply not_eq_sym, (D x Hx).
  - intros m Hm. apply in_map_iff in Hm. destruct Hm as [x [<- Hx]]. cbn. destruct (HC (ln x) (B x Hx)) as [b [Eb Lb]]. rewrite (C x Hx) in Eb. congruence.
Qed.
Lemma after_swap H k P ms : legal H k P ms -> after (after P ms) (map lswap ms) = P.
Proof.
  intros [A B C D E]. apply functional_extensionality. intros v. destruct (in_dec Nat.eq_dec v (map ln ms)) as [Hv|Hv].
  - apply in_map_iff in Hv. destruct Hv as [m [<- Hm]]. change (ln m) with (ln (lswap m)). rewrite after_in; [|rewrite lswap_map; exact A|apply in_map; exact Hm].
    cbn. symmetry. apply C. exact Hm.
  - rewrite after_out by (rewrite lswap_map; exact Hv). apply after_out. exact Hv.
Qed.
(** Block weights after a set of moves. *)
Lemma after_cons P m ms : NoDup (map ln (m :: ms)) -> after P (m :: ms) = after (move P (ln m) (lto m)) ms.
Proof.
  intros ND. apply functional_extensionality. intros v. cbn [map] in ND. inversion ND as [|? ? Hm ND']; subst. unfold after at 1. cbn [find].
  destruct (Nat.eqb_spec (ln m) v) as [<-|Ne].
  - rewrite after_out by exact Hm. unfold move. rewrite upd_same. reflexivity.
  - fold (after P ms v). unfold after. destruct (find _ ms); [reflexivity|]. unfold move. rewrite upd_other; [reflexivity|congruence].
Qed.
Lemma weight_after H k b : NoDup (nodes H) -> forall ms P, legal H k P ms -> block_weight H (after P ms) b = block_weight H P b + delta H ms b.
Proof.
  intros NDN. induction ms as [|m ms IH]; intros P LG; [cbn; change (after P []) with P; lia|]. pose proof LG as [A B C D E].
  rewrite after_cons by exact A. rewrite IH.
  - rewrite block_weight_move; [|exact NDN|apply B; left; reflexivity]. unfold delta. cbn [sumZ]. unfold in_block. rewrite (C m) by (left; reflexivity).
    destruct (Nat.eqb_spec (lto m) b), (Nat.eqb_spec (lfrom m) b); cbn [Z.b2z]; lia.
  - cbn [map] in A. inversion A as [|? ? Hm A']; subst. constructor; [exact A'| | | |].
    + intros x Hx. apply B. right. exact Hx.
    + intros x Hx. unfold move. rewrite upd_other; [apply C; right; exact Hx|]. intros X. apply Hm. rewrite <- X. apply in_map. exact Hx.
    + intros x Hx. apply D. right. exact Hx.
    + intros x Hx. apply E. right. exact Hx.
Qed.
Section Apply.
Variables (H : hypergraph) (k : nat) (o : objective).
Hypothesis Wn : forall v, In v (nodes H) -> 0 <= nw H v.
Hypothesis Wt : total_weight H <= MAXW.
Theorem apply_ok ms s s' g : started H s -> pk s = k -> legal H k (part s) ms -> apply_all H o ms s s' g ->
  started H s' /\ pk s' = k /\ part s' = after (part s) ms /\ g = obj_spec o H (part s) - obj_spec o H (part s').
Proof using Wn Wt.
  intros ST Ek LG (n & cu & c & l & st & E & Q & Pm & -> & ->). pose proof ST as (WF & C & HC).
  assert (U : Forall (unlimited H) l).
  { apply Forall_forall. intros a Ha. destruct a as [i m|i]; [|exact I]. cbn [unlimited].
    assert (X : In m (map tomv ms)). { eapply Permutation_in; [exact Pm|]. apply in_flat_map. exists (Begin i m). split; [exact Ha|left; reflexivity]. }
    apply in_map_iff in X. destruct X as (x & <- & _). exact Wt. }
  pose proof (unlimited_accepted H n cu s c l st ST Wn U E) as AC.
  pose proof (Permutation_trans (Permutation_sym Pm) (quiescent_returned H n cu s c l st E Q)) as PR.
  assert (EM : map m_u (map tomv ms) = map ln ms) by (rewrite map_map; reflexivity).
  assert (ND : NoDup (map m_u (map fst (rep st)))).
  { eapply Permutation_NoDup; [apply Permutation_map; exact PR|]. rewrite EM. apply (lg_nodup _ _ _ _ LG). }
  destruct (replay_distinct (part s) (rep st) AC ND) as [R1 R2].
  destruct (conc_quiescent H n cu WF s c l st C HC E Q) as (K & C' & HC' & R).
  assert (EP : part (sh st) = after (part s) ms).
  { apply functional_extensionality. intros v. rewrite R. destruct (in_dec Nat.eq_dec v (map ln ms)) as [Hv|Hv].
    - apply in_map_iff in Hv. destruct Hv as [m [<- Hm]]. rewrite after_in; [|apply (lg_nodup _ _ _ _ LG)|exact Hm].
      apply (R1 (tomv m)). apply (Permutation_in _ PR). apply in_map. exact Hm.
    - rewrite after_out by exact Hv. apply R2. intros X. apply Hv. rewrite <- EM.
      apply (Permutation_in v (Permutation_sym (Permutation_map m_u PR)) X). }
  split; [split; [exact WF|split; [exact C'|rewrite K; exact HC']]|]. split; [congruence|]. split; [exact EP|].
  destruct (C06_attributed_gains_sum H s n cu c l st ST E Q) as (G1 & G2 & G3). unfold gain_of, obj_spec. destruct o; lia.
Qed.
(** Either the moves are executed and did not make the objective worse, or the old partition is back and the gain is 0. *)
Theorem apply_or_revert_ok ms s s' g rev : started H s -> pk s = k -> legal H k (part s) ms -> apply_or_revert H o ms s s' g rev ->
  started H s' /\ pk s' = k /\ 0 <= g /\ g = obj_spec o H (part s) - obj_spec o H (part s') /\
  rev = (obj_spec o H (part s) <? obj_spec o H (after (part s) ms)) /\ part s' = (if rev then part s else after (part s) ms).
Proof using Wn Wt.
  intros ST Ek LG (s1 & g1 & A1 & A2). destruct (apply_ok ms s s1 g1 ST Ek LG A1) as (S1 & K1 & P1 & G1).
  assert (EB : (g1 <? 0) = (obj_spec o H (part s) <? obj_spec o H (after (part s) ms))).
  { rewrite <- P1. destruct (Z.ltb_spec g1 0), (Z.ltb_spec (obj_spec o H (part s)) (obj_spec o H (part s1))); lia. }
  destruct (Z.ltb_spec g1 0) as [Ln|Ln].
  - destruct A2 as [-> (g2 & A2 & ->)].
    assert (LS : legal H k (part s1) (map lswap ms)).
    { rewrite P1. apply legal_swap; [|exact LG]. pose proof ST as (_ & _ & HC). intros v Hv. destruct (HC v Hv) as [b X]. exists b. rewrite <- Ek. exact X. }
    destruct (apply_ok (map lswap ms) s1 s' g2 S1 K1 LS A2) as (S2 & K2 & P2 & G2).
    assert (EP : part s' = part s) by (rewrite P2, P1; apply (after_swap H k); exact LG).
    split; [exact S2|]. split; [exact K2|]. rewrite EP in *. split; [lia|]. split; [lia|]. split; [exact EB|reflexivity].
  - destruct A2 as (-> & -> & ->). split; [exact S1|]. split; [exact K1|]. split; [exact Ln|]. split; [exact G1|]. split; [exact EB|exact P1].
Qed.
End Apply.
