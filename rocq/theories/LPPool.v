(** LPPool.v - the parallel loops of the label propagation refiner: tbb::parallel_for over a list of nodes, whose tasks call
    changeNodePart (label_propagation_refiner.cpp:247-252 with 44-95, and 299-305 with 318-324), under every interleaving.
    Each task owns one entry of the list; the calls of changeNodePart are executed step by step with the machine of Conc.v, but without
    its guards: that the usage contract of concurrent moves is respected is proved, not assumed. *)
From Verif Require Import Base Spec SpecLemmas PHG PHGProofs GainCache Metrics Conc ConcProofs ConcMore ConcRun Scan LP.

(** What a thread is doing: nothing; about to call changeNodePart; inside changeNodePart.  [x]: the gain computed before the move,
    [r]: this is the call that reverts the move. *)
Inductive tpc := TIdle | TCall (m : mv) (x : Z) (r : bool) | TIn (m : mv) (x : Z) (r : bool).
Record pst := mkPS {
  p_c : cst;               (* partition and the calls in progress *)
  p_todo : list nat;       (* entries no task has started with *)
  p_pc : nat -> tpc;       (* threads 0..n-1 *)
  p_acc : nat -> Z;        (* sum of the attributed gains of the current call of each thread *)
  p_fl : list nat;         (* entries whose flag has been set, in the order of completion *)
  p_an : nact }.           (* activation data *)
Inductive plabel := PSkip (v : nat) | PTake (i : nat) (m : mv) (x : Z) | PGo (i : nat) | PAdv (i : nat).
Fixpoint rem1 (v : nat) (l : list nat) : list nat := match l with [] => [] | w :: l' => if Nat.eqb v w then l' else w :: rem1 v l' end.
Definition idleb (t : tst) : bool := match t with Idle => true | _ => false end.

Section Pool.
Variables (H : hypergraph) (n : nat) (mops : hypergraph -> sync_update -> list mop) (g : sync_update -> Z).
(** What the tasks decide (instantiated below): whether an entry can be left alone, whether a move can be the proposed one, whether a
    finished move has to be followed by another one, and what happens to the activation data at the end. *)
Variables (skip : partition -> nat -> bool) (may : partition -> mv -> Z -> bool) (again : mv -> Z -> bool -> Z -> option mv)
  (fin : mv -> Z -> bool -> bool -> Z -> partition -> nact -> nact).

(** First step of changeNodePart (partitioned_hypergraph.h:601-602), whoever else may be moving the node. *)
Definition ubegin (c : cst) (i : nat) (m : mv) : cst :=
  let s' := add_wt (sh c) (m_to m) (nw H (m_u m)) in set_th (set_sh c s') i (Added m (wt s' (m_to m))).
Definition after_call (m : mv) (x : Z) (r b : bool) (a : Z) : option mv := if r then None else again m x b a.
Definition pstep (st : pst) (l : plabel) : option pst :=
  let c := p_c st in
  match l with
  | PSkip v => if mem v (p_todo st) && skip (part (sh c)) v then Some (mkPS c (rem1 v (p_todo st)) (p_pc st) (p_acc st) (p_fl st) (p_an st)) else None
  | PTake i m x =>
    match p_pc st i with
    | TIdle => if (i <? n)%nat && mem (m_u m) (p_todo st) && in_block (part (sh c)) (m_from m) (m_u m) && may (part (sh c)) m x
               then Some (mkPS c (rem1 (m_u m) (p_todo st)) (upd (p_pc st) i (TCall m x false)) (upd (p_acc st) i 0) (p_fl st) (p_an st)) else None
    | _ => None
    end
  | PGo i =>
    match p_pc st i with
    | TCall m x r => Some (mkPS (ubegin c i m) (p_todo st) (upd (p_pc st) i (TIn m x r)) (p_acc st) (p_fl st) (p_an st))
    | _ => None
    end
  | PAdv i =>
    match p_pc st i with
    | TIn m x r =>
      match adv H mops c i with
      | None => None
      | Some c' =>
        let a := p_acc st i + match th c i with Incd _ _ su => g su | _ => 0 end in
        if idleb (th c' i) then
          let b := match rep c' with (_, b) :: _ => b | [] => false end in
          match after_call m x r b a with
          | Some m' => Some (mkPS c' (p_todo st) (upd (p_pc st) i (TCall m' x true)) (upd (p_acc st) i 0) (p_fl st) (p_an st))
          | None => Some (mkPS c' (p_todo st) (upd (p_pc st) i TIdle) (upd (p_acc st) i 0) (p_fl st ++ [m_u m]) (fin m x r b a (part (sh c')) (p_an st)))
          end
        else Some (mkPS c' (p_todo st) (p_pc st) (upd (p_acc st) i a) (p_fl st) (p_an st))
      end
    | _ => None
    end
  end.
Definition prun (st : pst) (l : list plabel) : option pst := fold_opt pstep st l.
Definition pinit (s : phg) (c : cache) (act : list nat) (x : nact) : pst := mkPS (cinit s c) act (fun _ => TIdle) (fun _ => 0) [] x.
(** The parallel loop is over. *)
Definition pdone (st : pst) : Prop := p_todo st = [] /\ forall i, (i < n)%nat -> p_pc st i = TIdle.
End Pool.

(** *** Proofs *)
Lemma rem1_In v w l : In w (rem1 v l) -> In w l.
Proof. induction l as [|a l IH]; cbn [rem1]; [tauto|]. destruct (Nat.eqb v a); [right; assumption|]. intros [X|X]; [left; exact X|right; auto]. Qed.
Lemma rem1_nodup v l : NoDup l -> NoDup (rem1 v l) /\ ~ In v (rem1 v l) /\ forall w, w <> v -> In w l -> In w (rem1 v l).
Proof.
  induction l as [|a l IH]; cbn [rem1]; intros N; [split; [constructor|tauto]|]. inversion N as [|? ? Na N']; subst. destruct (IH N') as (A & B & C).
  destruct (Nat.eqb_spec v a) as [->|Ne].
  - split; [exact N'|]. split; [exact Na|]. intros w Hw [X|X]; [congruence|exact X].
  - split; [constructor; [intros X; apply Na; eapply rem1_In; exact X|exact A]|]. split; [intros [X|X]; [congruence|exact (B X)]|]. intros w Hw [X|X]; [left; exact X|right; apply C; assumption].
Qed.

(** The weight of a block never exceeds the total weight, whatever is in progress. *)
Definition cn (t : tst) (b : nat) : list nat :=
  match t with Added m _ => if Nat.eqb b (m_to m) then [m_u m] else [] | Stored m => if Nat.eqb b (m_from m) then [m_u m] else [] | _ => [] end.
Lemma sum_sub (f : nat -> Z) (l l' : list nat) : NoDup l -> incl l l' -> (forall v, In v l' -> 0 <= f v) -> sumZ f l <= sumZ f l'.
Proof.
  revert l'. induction l as [|a l IH]; intros l' N I P; cbn [sumZ].
  - apply sumZ_nonneg. exact P.
  - inversion N as [|? ? Na N']; subst. assert (Ha : In a l') by (apply I; left; reflexivity). apply in_split in Ha. destruct Ha as (x & y & ->).
    rewrite sumZ_app. cbn [sumZ]. assert (X : sumZ f l <= sumZ f (x ++ y)).
    { apply IH; [exact N'| |intros v Hv; apply P; apply in_or_app; apply in_app_or in Hv; destruct Hv; [left|right; right]; assumption].
      intros v Hv. assert (Hv' : In v (x ++ a :: y)) by (apply I; right; exact Hv). apply in_or_app. apply in_app_or in Hv'. destruct Hv' as [Z|[Z|Z]]; [left; exact Z|congruence|right; exact Z]. }
    rewrite sumZ_app in X. lia.
Qed.
Lemma wt_total H k n st eff b : wf_hg H -> (forall v, In v (nodes H) -> 0 <= nw H v) -> Base H k n st eff -> (b < k)%nat -> wt (sh st) b <= total_weight H.
Proof.
  intros WF Wn B Hb. rewrite (b_wt H k n st eff B b Hb).
  assert (Ec : sumZ (fun i => cwt H (th st i) b) (seq 0 n) = sumZ (nw H) (flat_map (fun i => cn (th st i) b) (seq 0 n))).
  { generalize (seq 0 n) as l. induction l as [|i l IH]; cbn [sumZ flat_map]; [reflexivity|]. rewrite sumZ_app, IH. f_equal. unfold cwt, cn. destruct (th st i); cbn [sumZ]; try reflexivity; destruct (Nat.eqb b _); cbn [sumZ]; lia. }
  assert (Hc : forall i v, (i < n)%nat -> In v (cn (th st i) b) -> exists m, mv_of (th st i) = Some m /\ m_u m = v /\ In v (nodes H) /\ in_block (part (sh st)) b v = false).
  { intros i v Hi Hv. unfold cn in Hv. destruct (th st i) as [|m a|m| | | | |] eqn:Et; try destruct Hv.
    - destruct (Nat.eqb_spec b (m_to m)) as [->|]; [|destruct Hv]. destruct Hv as [<-|[]]. assert (Em : mv_of (th st i) = Some m) by (rewrite Et; reflexivity).
      destruct (b_mv H k n st eff B i m Hi Em) as (M1 & M2 & _). pose proof (b_cur H k n st eff B i m Hi Em) as Cu. rewrite Et in Cu. cbn [stored] in Cu.
      exists m. split; [reflexivity|]. split; [reflexivity|]. split; [exact M1|]. unfold in_block. rewrite Cu. apply Nat.eqb_neq. exact M2.
    - destruct (Nat.eqb_spec b (m_from m)) as [->|]; [|destruct Hv]. destruct Hv as [<-|[]]. assert (Em : mv_of (th st i) = Some m) by (rewrite Et; reflexivity).
      destruct (b_mv H k n st eff B i m Hi Em) as (M1 & M2 & _). pose proof (b_cur H k n st eff B i m Hi Em) as Cu. rewrite Et in Cu. cbn [stored] in Cu.
      exists m. split; [reflexivity|]. split; [reflexivity|]. split; [exact M1|]. unfold in_block. rewrite Cu. apply Nat.eqb_neq. congruence. }
  assert (Nd : forall l, NoDup l -> (forall i, In i l -> (i < n)%nat) -> NoDup (flat_map (fun i => cn (th st i) b) l)).
  { induction l as [|i l IH]; intros N Hl; cbn [flat_map]; [constructor|]. inversion N as [|? ? Ni N']; subst. specialize (IH N' ltac:(intros j Hj; apply Hl; right; exact Hj)).
    assert (S1 : NoDup (cn (th st i) b)) by (unfold cn; destruct (th st i); try destruct (Nat.eqb b _); try constructor; auto; constructor).
    assert (Dj : forall v, In v (cn (th st i) b) -> ~ In v (flat_map (fun i => cn (th st i) b) l)).
    { intros v Hv Hin. apply in_flat_map in Hin. destruct Hin as (j & Hj & Hjv). destruct (Hc i v ltac:(apply Hl; left; reflexivity) Hv) as (m & Em & Eu & _). destruct (Hc j v ltac:(apply Hl; right; exact Hj) Hjv) as (m' & Em' & Eu' & _).
      assert (Nij : i <> j) by (intros ->; contradiction). apply (b_nodes H k n st eff B i j m m' ltac:(apply Hl; left; reflexivity) ltac:(apply Hl; right; exact Hj) Nij Em Em'). congruence. }
    revert S1 Dj. generalize (cn (th st i) b) as u. induction u as [|a u IHu]; intros S1 Dj; cbn [app]; [exact IH|]. inversion S1; subst. constructor.
    - intros X. apply in_app_or in X. destruct X as [X|X]; [contradiction|]. exact (Dj a (or_introl eq_refl) X).
    - apply IHu; [assumption|]. intros v Hv. apply Dj. right. exact Hv. }
  rewrite Ec. unfold total_weight, block_weight.
  rewrite (sumZ_ext (nw H) (fun v => (if in_block (part (sh st)) b v then nw H v else 0) + (if in_block (part (sh st)) b v then 0 else nw H v)) (nodes H)) by (intros v _; destruct (in_block (part (sh st)) b v); lia).
  rewrite sumZ_plus, sumZ_filter. apply Z.add_le_mono_l.
  rewrite (sumZ_ext (fun v => if in_block (part (sh st)) b v then 0 else nw H v) (fun v => if negb (in_block (part (sh st)) b v) then nw H v else 0)) by (intros v _; destruct (in_block (part (sh st)) b v); reflexivity).
  rewrite <- sumZ_filter. apply sum_sub.
  - apply Nd; [apply seq_NoDup|]. intros i Hi. apply in_seq in Hi. lia.
  - intros v Hv. apply in_flat_map in Hv. destruct Hv as (i & Hi & Hv). apply in_seq in Hi. destruct (Hc i v ltac:(lia) Hv) as (m & _ & _ & A & Bf). apply filter_In. split; [exact A|]. rewrite Bf. reflexivity.
  - intros v Hv. apply filter_In in Hv. apply Wn. apply Hv.
Qed.
