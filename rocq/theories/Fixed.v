(** Fixed.v - FixedVertexSupport (mt-kahypar/datastructures/fixed_vertex_support.h/.cpp) under concurrent contractions
    of a dynamic hypergraph (mt-kahypar/datastructures/dynamic_hypergraph.cpp:533-625).

    A contraction of v onto u holds the ownership of both hypernodes (acquireHypernode, :538-545) from the first check
    until the weight of u is updated (:560-564), so it is interleaved with other contractions only through the shared
    block weight counters: first add_fetch, then either accept or sub_fetch.  These are the atomic steps below.
    Not modelled: pending-contraction bookkeeping (contraction tree), memory orders. *)
From Verif Require Import Base.

Section Fixed.
Variables (V : list nat) (k : nat) (Max : nat -> Z).        (* nodes, blocks, _max_block_weights *)

(** Additions to a block weight that are not yet decided (between add_fetch and the branch, cpp:96-121). *)
Record pend := mkPend { p_u : nat; p_v : nat; p_blk : nat; p_delta : Z; p_ubf : bool; p_after : Z }.

(** FixedVertexSupport (h:41-51, 190-210) and the parts of the hypergraph it reads. *)
Record fst_ := mkF {
  f_block : nat -> option nat;     (* FixedVertexData::block *)
  f_cnt : nat -> nat;              (* fixed_vertex_contraction_cnt *)
  f_fw : nat -> Z;                 (* fixed_vertex_weight *)
  f_bw : nat -> Z;                 (* _fixed_vertex_block_weights *)
  f_total : Z;                     (* _total_fixed_vertex_weight *)
  f_nw : nat -> Z;                 (* hypergraph: nodeWeight *)
  f_on : nat -> bool;              (* hypergraph: nodeIsEnabled *)
  f_pend : list pend;              (* contractions in progress *)
  f_rep : nat -> nat               (* ghost: enabled node an original node has been contracted into *)
}.
Definition isFixed (s : fst_) (v : nat) : bool := match f_block s v with Some _ => true | None => false end.
Definition busy (s : fst_) (v : nat) : bool := existsb (fun p => Nat.eqb (p_u p) v || Nat.eqb (p_v p) v) (f_pend s).

(** fixToBlock, h:108-131 (first fixing of a node wins). *)
Definition fixToBlock (s : fst_) (hn b : nat) : fst_ :=
  match f_block s hn with
  | None => mkF (upd (f_block s) hn (Some b)) (upd (f_cnt s) hn 1%nat) (upd (f_fw s) hn (f_nw s hn))
                (upd (f_bw s) b (f_bw s b + f_nw s hn)) (f_total s + f_nw s hn) (f_nw s) (f_on s) (f_pend s) (f_rep s)
  | Some _ => s
  end.

(** After a successful contraction: dynamic_hypergraph.cpp:560-561. *)
Definition merge (s : fst_) (u v : nat) : fst_ :=
  mkF (f_block s) (f_cnt s) (f_fw s) (f_bw s) (f_total s) (upd (f_nw s) u (f_nw s u + f_nw s v)) (upd (f_on s) v false)
      (f_pend s) (fun x => if Nat.eqb (f_rep s x) v then u else f_rep s x).

(** contractImpl (cpp:46-132), first part: decisions under the lock of u, up to add_fetch.
    Result: new state and, if already decided, whether the contraction is allowed. *)
Definition contract_begin (s : fst_) (u v : nat) : fst_ * option bool :=
  match f_block s u, f_block s v with
  | None, None => (s, Some true)
  | Some a, Some b =>
      if Nat.eqb a b then
        (mkF (f_block s) (upd (f_cnt s) u (S (f_cnt s u))) (f_fw s) (f_bw s) (f_total s) (f_nw s) (f_on s) (f_pend s) (f_rep s), Some true)
      else (s, Some false)
  | None, Some b =>                                                  (* u becomes fixed *)
      let after := f_bw s b + f_nw s u in
      (mkF (f_block s) (f_cnt s) (f_fw s) (upd (f_bw s) b after) (f_total s) (f_nw s) (f_on s)
           (mkPend u v b (f_nw s u) true after :: f_pend s) (f_rep s), None)
  | Some b, None =>                                                  (* v becomes fixed *)
      let after := f_bw s b + f_nw s v in
      (mkF (f_block s) (f_cnt s) (f_fw s) (upd (f_bw s) b after) (f_total s) (f_nw s) (f_on s)
           (mkPend u v b (f_nw s v) false after :: f_pend s) (f_rep s), None)
  end.
(** Second part, cpp:99-131: accept or revert. *)
Definition contract_end (s : fst_) (p : pend) (rest : list pend) : fst_ * bool :=
  if p_after p <=? Max (p_blk p) then
    let tot := f_total s + p_delta p in
    (if p_ubf p then
       mkF (upd (f_block s) (p_u p) (Some (p_blk p))) (upd (f_cnt s) (p_u p) 1%nat) (upd (f_fw s) (p_u p) (f_nw s (p_u p)))
           (f_bw s) tot (f_nw s) (f_on s) rest (f_rep s)
     else
       mkF (upd (f_block s) (p_v p) (Some (p_blk p))) (f_cnt s) (upd (f_fw s) (p_v p) (f_nw s (p_v p)))
           (f_bw s) tot (f_nw s) (f_on s) rest (f_rep s), true)
  else
    (mkF (f_block s) (f_cnt s) (f_fw s) (upd (f_bw s) (p_blk p) (f_bw s (p_blk p) - p_delta p)) (f_total s)
         (f_nw s) (f_on s) rest (f_rep s), false).

(** The call in DynamicHypergraph::contract, dynamic_hypergraph.cpp:555-558: FixedVertexSupport is only asked if
    hasFixedVertices() (total fixed weight positive, h:97-99). *)
Definition hasFixedVertices (s : fst_) : bool := 0 <? f_total s.
Definition gated_begin (s : fst_) (u v : nat) : fst_ * option bool :=
  if hasFixedVertices s then contract_begin s u v else (s, Some true).

(** Interleaved execution. *)
Inductive fstep : fst_ -> fst_ -> Prop :=
| fs_done s u v s1 ok : In u V -> In v V -> u <> v -> f_on s u = true -> f_on s v = true ->
    busy s u = false -> busy s v = false ->
    gated_begin s u v = (s1, Some ok) -> fstep s (if ok then merge s1 u v else s1)
| fs_add s u v s1 : In u V -> In v V -> u <> v -> f_on s u = true -> f_on s v = true ->
    busy s u = false -> busy s v = false ->
    gated_begin s u v = (s1, None) -> fstep s s1
| fs_decide s p l1 l2 s1 ok : f_pend s = l1 ++ p :: l2 ->
    contract_end s p (l1 ++ l2) = (s1, ok) -> fstep s (if ok then merge s1 (p_u p) (p_v p) else s1).
Inductive freach : fst_ -> fst_ -> Prop :=
| fr_refl s : freach s s
| fr_step a b c : freach a b -> fstep b c -> freach a c.

(** Weight of the enabled nodes that are fixed to block b. *)
Definition fixed_in (s : fst_) (b : nat) (v : nat) : bool :=
  f_on s v && match f_block s v with Some c => Nat.eqb c b | None => false end.
Definition fixed_weight (s : fst_) (b : nat) : Z := sumZ (f_nw s) (filter (fixed_in s b) V).
Definition pend_weight (ps : list pend) (b : nat) : Z := sumZ (fun p => if Nat.eqb (p_blk p) b then p_delta p else 0) ps.
Definition good_weight (ps : list pend) (b : nat) : Z :=
  sumZ (fun p => if Nat.eqb (p_blk p) b && (p_after p <=? Max b) then p_delta p else 0) ps.
Definition all_fixed_weight (s : fst_) : Z := sumZ (f_nw s) (filter (fun v => f_on s v && isFixed s v) V).

(** A state before coarsening: all nodes enabled, fixed exactly according to F0. *)
Record finit (F0 : nat -> option nat) (s : fst_) : Prop := {
  fi_on : forall v, In v V -> f_on s v = true;
  fi_block : forall v, f_block s v = F0 v;
  fi_rep : forall v, f_rep s v = v;
  fi_pend : f_pend s = [];
  fi_bw : forall b, f_bw s b = fixed_weight s b;
  fi_total : f_total s = all_fixed_weight s;
  fi_nw : forall v, In v V -> 0 <= f_nw s v;
  fi_cnt : forall v, In v V -> f_cnt s v = match F0 v with Some _ => 1%nat | None => 0%nat end
}.

Definition touched (ps : list pend) : list nat := flat_map (fun p => [p_u p; p_v p]) ps.
Definition pend_ok (s : fst_) (p : pend) : Prop :=
  In (p_u p) V /\ In (p_v p) V /\ f_on s (p_u p) = true /\ f_on s (p_v p) = true /\
  (if p_ubf p then f_block s (p_u p) = None /\ f_block s (p_v p) = Some (p_blk p) /\ p_delta p = f_nw s (p_u p)
   else f_block s (p_u p) = Some (p_blk p) /\ f_block s (p_v p) = None /\ p_delta p = f_nw s (p_v p)).

(** Invariant of all interleavings. *)
Record finv (F0 : nat -> option nat) (s : fst_) : Prop := {
  iv_bw : forall b, f_bw s b = fixed_weight s b + pend_weight (f_pend s) b;
  iv_total : f_total s = all_fixed_weight s;
  iv_nw : forall v, In v V -> 0 <= f_nw s v;
  iv_rep : forall x, In x V -> In (f_rep s x) V /\ f_on s (f_rep s x) = true;
  iv_rep_self : forall x, In x V -> f_on s x = true -> f_rep s x = x;
  iv_members : forall x b, In x V -> F0 x = Some b -> f_block s (f_rep s x) = Some b;
  iv_origin : forall u b, In u V -> f_on s u = true -> f_block s u = Some b -> exists x, In x V /\ f_rep s x = u /\ F0 x = Some b;
  iv_cnt : forall v, In v V -> f_on s v = true -> (f_cnt s v = 0%nat <-> f_block s v = None);
  iv_pend : forall p, In p (f_pend s) -> pend_ok s p;
  iv_disj : NoDup (touched (f_pend s))
}.

Hypothesis V_nodup : NoDup V.

Definition G (q : nat -> bool) (s : fst_) (v : nat) : Z :=
  if f_on s v && match f_block s v with Some c => q c | None => false end then f_nw s v else 0.
Lemma fixed_weight_G s b : fixed_weight s b = sumZ (G (fun c => Nat.eqb c b) s) V.
Proof. unfold fixed_weight. rewrite sumZ_filter. reflexivity. Qed.
Lemma all_fixed_weight_G s : all_fixed_weight s = sumZ (G (fun _ => true) s) V.
Proof.
  unfold all_fixed_weight. rewrite sumZ_filter. apply sumZ_ext. intros v _. unfold G, isFixed.
  destruct (f_block s v); reflexivity.
Qed.
End Fixed.

Lemma sum_change2 (f g : nat -> Z) (l : list nat) u v :
  NoDup l -> In u l -> In v l -> u <> v -> (forall x, In x l -> x <> u -> x <> v -> f x = g x) ->
  sumZ f l = sumZ g l + (f u - g u) + (f v - g v).
Proof.
  intros Hnd Hu Hv Huv Heq.
  rewrite (sumZ_change1 f (fun x => if Nat.eqb x u then f u else g x + (if Nat.eqb x v then f v - g v else 0)) l u Hnd).
  2:{ intros x Hx Hxu. destruct (Nat.eqb_spec x u); [congruence|]. destruct (Nat.eqb_spec x v) as [->|]; [lia|].
      rewrite Heq by assumption. lia. }
  fold (mem u l). rewrite (proj2 (mem_In u l) Hu). rewrite Nat.eqb_refl, Z.sub_diag, Z.add_0_r.
  rewrite (sumZ_change1 (fun x => if Nat.eqb x u then f u else g x + (if Nat.eqb x v then f v - g v else 0))
             (fun x => if Nat.eqb x u then f u else g x) l v Hnd).
  2:{ intros x Hx Hxv. destruct (Nat.eqb_spec x u); [reflexivity|]. destruct (Nat.eqb_spec x v); [congruence|lia]. }
  fold (mem v l). rewrite (proj2 (mem_In v l) Hv). rewrite Nat.eqb_refl.
  destruct (Nat.eqb_spec v u); [congruence|].
  rewrite (sumZ_change1 (fun x => if Nat.eqb x u then f u else g x) g l u Hnd).
  2:{ intros x Hx Hxu. destruct (Nat.eqb_spec x u); [congruence|reflexivity]. }
  fold (mem u l). rewrite (proj2 (mem_In u l) Hu). rewrite Nat.eqb_refl. lia.
Qed.

(** Effect of a completed contraction on everything but the counters, uniformly for the four ways it can succeed. *)
Section Merge.
Variables (V : list nat) (s s2 : fst_) (u v : nat) (B : option nat).
Hypothesis V_nodup : NoDup V.
Hypothesis Hu : In u V.
Hypothesis Hv : In v V.
Hypothesis Huv : u <> v.
Hypothesis Hou : f_on s u = true.
Hypothesis Hov : f_on s v = true.
Hypothesis HBu : f_block s u = None \/ f_block s u = B.
Hypothesis HBv : f_block s v = None \/ f_block s v = B.
Hypothesis HB : B = None \/ f_block s u = B \/ f_block s v = B.
Hypothesis E_nw : f_nw s2 = upd (f_nw s) u (f_nw s u + f_nw s v).
Hypothesis E_on : f_on s2 = upd (f_on s) v false.
Hypothesis E_rep : f_rep s2 = (fun x => if Nat.eqb (f_rep s x) v then u else f_rep s x).
Hypothesis E_blk : forall x, x <> u -> x <> v -> f_block s2 x = f_block s x.
Hypothesis E_blku : f_block s2 u = B.

Lemma merge_G q : sumZ (G q s2) V = sumZ (G q s) V +
  match B with Some b => if q b then (if isFixed s u then 0 else f_nw s u) + (if isFixed s v then 0 else f_nw s v) else 0 | None => 0 end.
Proof using V_nodup Hu Hv Huv Hou Hov HBu HBv HB E_nw E_on E_blk E_blku.
  rewrite (sum_change2 (G q s2) (G q s) V u v V_nodup Hu Hv Huv).
  - assert (A1 : G q s2 u = match B with Some b => if q b then f_nw s u + f_nw s v else 0 | None => 0 end).
    { unfold G. rewrite E_on, E_nw, E_blku, upd_same, (upd_other _ v u) by exact Huv. rewrite Hou. destruct B; reflexivity. }
    assert (A2 : G q s2 v = 0) by (unfold G; rewrite E_on, upd_same; reflexivity).
    assert (A3 : forall x, f_on s x = true -> G q s x = match f_block s x with Some b => if q b then f_nw s x else 0 | None => 0 end).
    { intros x Hx. unfold G. rewrite Hx. destruct (f_block s x); reflexivity. }
    rewrite A1, A2, (A3 u Hou), (A3 v Hov). unfold isFixed.
    clear A1 A2 A3. destruct B as [b|].
    + destruct HBu as [-> | ->], HBv as [-> | ->]; destruct (q b); lia.
    + destruct HBu as [-> | ->], HBv as [-> | ->]; lia.
  - intros x Hx Hxu Hxv. unfold G. rewrite E_on, E_nw, E_blk by assumption. rewrite !upd_other by assumption. reflexivity.
Qed.
Lemma merge_rep :
  (forall x, In x V -> In (f_rep s x) V /\ f_on s (f_rep s x) = true) ->
  (forall x, In x V -> f_on s x = true -> f_rep s x = x) ->
  (forall x, In x V -> In (f_rep s2 x) V /\ f_on s2 (f_rep s2 x) = true) /\
  (forall x, In x V -> f_on s2 x = true -> f_rep s2 x = x).
Proof using Hu Huv Hou E_on E_rep.
  intros I1 I2. split; intros x Hx; rewrite E_rep, E_on.
  - destruct (Nat.eqb_spec (f_rep s x) v) as [E|E].
    + split; [exact Hu|]. rewrite upd_other by exact Huv. exact Hou.
    + destruct (I1 x Hx) as [A C]. split; [exact A|]. rewrite upd_other by exact E. exact C.
  - intros Hon. unfold upd in Hon. destruct (Nat.eqb_spec x v) as [->|Hne]; [discriminate|].
    rewrite (I2 x Hx Hon). destruct (Nat.eqb_spec x v); [congruence|reflexivity].
Qed.
Lemma merge_members (F0 : nat -> option nat) :
  (forall x, In x V -> f_on s x = true -> f_rep s x = x) ->
  (forall x b, In x V -> F0 x = Some b -> f_block s (f_rep s x) = Some b) ->
  (forall w b, In w V -> f_on s w = true -> f_block s w = Some b -> exists x, In x V /\ f_rep s x = w /\ F0 x = Some b) ->
  (forall x b, In x V -> F0 x = Some b -> f_block s2 (f_rep s2 x) = Some b) /\
  (forall w b, In w V -> f_on s2 w = true -> f_block s2 w = Some b -> exists x, In x V /\ f_rep s2 x = w /\ F0 x = Some b).
Proof using All.
  intros I0 I1 I2. split.
  - intros x b Hx Hf. specialize (I1 x b Hx Hf). rewrite E_rep.
    destruct (Nat.eqb_spec (f_rep s x) v) as [E|E].
    + rewrite E in I1. rewrite E_blku. destruct HBv; congruence.
    + destruct (Nat.eq_dec (f_rep s x) u) as [E2|E2].
      * rewrite E2 in *. rewrite E_blku. destruct HBu; congruence.
      * rewrite E_blk by assumption. exact I1.
  - intros w b Hw Hon Hb. rewrite E_on in Hon. unfold upd in Hon. destruct (Nat.eqb_spec w v) as [->|Hwv]; [discriminate|].
    destruct (Nat.eq_dec w u) as [->|Hwu].
    + rewrite E_blku in Hb. destruct HB as [C|[C|C]]; [congruence| |].
      * destruct (I2 u b Hu Hou) as [x [X1 [X2 X3]]]; [congruence|]. exists x. split; [exact X1|split; [|exact X3]].
        rewrite E_rep, X2. destruct (Nat.eqb_spec u v); [congruence|reflexivity].
      * destruct (I2 v b Hv Hov) as [x [X1 [X2 X3]]]; [congruence|]. exists x. split; [exact X1|split; [|exact X3]].
        rewrite E_rep, X2, Nat.eqb_refl. reflexivity.
    + rewrite E_blk in Hb by assumption. destruct (I2 w b Hw Hon Hb) as [x [X1 [X2 X3]]].
      exists x. split; [exact X1|split; [|exact X3]]. rewrite E_rep, X2. destruct (Nat.eqb_spec w v); [congruence|reflexivity].
Qed.
End Merge.

Section Inv.
Variables (V : list nat) (Max : nat -> Z) (F0 : nat -> option nat).
Hypothesis V_nodup : NoDup V.

Lemma touched_app l1 l2 : touched (l1 ++ l2) = touched l1 ++ touched l2.
Proof. unfold touched. apply flat_map_app. Qed.
Lemma touched_in p ps : In p ps -> In (p_u p) (touched ps) /\ In (p_v p) (touched ps).
Proof.
  intros Hp. split; apply in_flat_map; exists p; (split; [exact Hp|]); [left; reflexivity|right; left; reflexivity].
Qed.
Lemma busy_false s v : busy s v = false -> ~ In v (touched (f_pend s)).
Proof.
  intros Hb Hin. apply in_flat_map in Hin. destruct Hin as [p [Hp Hi]].
  assert (busy s v = true); [|congruence]. apply existsb_exists. exists p. split; [exact Hp|].
  destruct Hi as [<-|[<-|[]]]; rewrite Nat.eqb_refl; [reflexivity|apply orb_true_r].
Qed.
Lemma touched_remove l1 p l2 : NoDup (touched (l1 ++ p :: l2)) ->
  NoDup (touched (l1 ++ l2)) /\ p_u p <> p_v p /\ ~ In (p_u p) (touched (l1 ++ l2)) /\ ~ In (p_v p) (touched (l1 ++ l2)).
Proof.
  intros Hnd. assert (Hp : Permutation (touched (l1 ++ p :: l2)) (p_u p :: p_v p :: touched (l1 ++ l2))).
  { rewrite !touched_app. cbn [touched flat_map]. fold (touched l2).
    change (touched l1 ++ ([p_u p; p_v p] ++ touched l2)) with (touched l1 ++ p_u p :: p_v p :: touched l2).
    eapply Permutation_trans; [apply Permutation_sym, Permutation_middle|]. apply perm_skip.
    apply Permutation_sym, Permutation_middle. }
  apply (Permutation_NoDup Hp) in Hnd. inversion Hnd as [|? ? H1 H2]; subst. inversion H2 as [|? ? H3 H4]; subst.
  split; [exact H4|]. split; [|split].
  - intros C. apply H1. left. congruence.
  - intros C. apply H1. right. exact C.
  - exact H3.
Qed.
Lemma pend_weight_app l1 l2 b : pend_weight (l1 ++ l2) b = pend_weight l1 b + pend_weight l2 b.
Proof. apply sumZ_app. Qed.
Lemma good_weight_app l1 l2 b : good_weight Max (l1 ++ l2) b = good_weight Max l1 b + good_weight Max l2 b.
Proof. apply sumZ_app. Qed.
Lemma good_le_pend ps b : (forall p, In p ps -> 0 <= p_delta p) -> good_weight Max ps b <= pend_weight ps b.
Proof.
  intros Hn. apply sumZ_le. intros p Hp. specialize (Hn p Hp).
  destruct (Nat.eqb (p_blk p) b); cbn [andb]; [destruct (p_after p <=? Max b)|]; lia.
Qed.

(** A successful contraction preserves everything except the counters. *)
Lemma merge_inv s s2 u v B ps :
  finv V F0 s -> In u V -> In v V -> u <> v -> f_on s u = true -> f_on s v = true ->
  (f_block s u = None \/ f_block s u = B) -> (f_block s v = None \/ f_block s v = B) ->
  (B = None \/ f_block s u = B \/ f_block s v = B) ->
  f_nw s2 = upd (f_nw s) u (f_nw s u + f_nw s v) -> f_on s2 = upd (f_on s) v false ->
  f_rep s2 = (fun x => if Nat.eqb (f_rep s x) v then u else f_rep s x) ->
  (forall x, x <> u -> x <> v -> f_block s2 x = f_block s x) -> f_block s2 u = B ->
  (forall x, x <> u -> x <> v -> f_cnt s2 x = f_cnt s x) -> (f_cnt s2 u = 0%nat <-> B = None) ->
  f_pend s2 = ps -> (forall p, In p ps -> In p (f_pend s)) -> NoDup (touched ps) ->
  ~ In u (touched ps) -> ~ In v (touched ps) ->
  (forall b, f_bw s2 b = fixed_weight V s2 b + pend_weight ps b) ->
  f_total s2 = all_fixed_weight V s2 ->
  finv V F0 s2.
Proof.
  intros I Hu Hv Huv Hou Hov HBu HBv HB En Eo Er Eb Ebu Ec Ecu Ep Hsub Hnd Hnu Hnv Hbw Htot.
  destruct (merge_rep V s s2 u v Hu Huv Hou Eo Er (iv_rep _ _ _ I) (iv_rep_self _ _ _ I)) as [R1 R2].
  destruct (merge_members V s s2 u v B V_nodup Hu Hv Huv Hou Hov HBu HBv HB En Eo Er Eb Ebu F0
              (iv_rep_self _ _ _ I) (iv_members _ _ _ I) (iv_origin _ _ _ I)) as [M1 M2].
  constructor.
  - intros b. rewrite Ep. apply Hbw.
  - exact Htot.
  - intros x Hx. rewrite En. unfold upd. destruct (Nat.eqb x u); [|apply (iv_nw _ _ _ I); exact Hx].
    pose proof (iv_nw _ _ _ I u Hu). pose proof (iv_nw _ _ _ I v Hv). lia.
  - exact R1.
  - exact R2.
  - exact M1.
  - exact M2.
  - intros x Hx Hon. rewrite Eo in Hon. unfold upd in Hon. destruct (Nat.eqb_spec x v) as [->|Hxv]; [discriminate|].
    destruct (Nat.eq_dec x u) as [->|Hxu].
    + rewrite Ebu. exact Ecu.
    + rewrite Ec, Eb by assumption. apply (iv_cnt _ _ _ I); assumption.
  - intros p Hp. rewrite Ep in Hp. destruct (touched_in p ps Hp) as [T1 T2].
    assert (N : forall x, In x (touched ps) -> x <> u /\ x <> v) by (intros x Hx; split; intros ->; contradiction).
    destruct (N _ T1) as [N1 N2], (N _ T2) as [N3 N4].
    destruct (iv_pend _ _ _ I p (Hsub p Hp)) as [P1 [P2 [P3 [P4 P5]]]].
    unfold pend_ok. rewrite Eo, En. rewrite !upd_other by assumption. rewrite !Eb by assumption.
    repeat split; assumption.
  - rewrite Ep. exact Hnd.
Qed.

Lemma fstep_inv s s' : fstep V Max s s' -> 0 < f_total s -> finv V F0 s -> finv V F0 s'.
Proof.
  intros Hst Hpos I. unfold gated_begin in *.
  assert (Hg : hasFixedVertices s = true) by (apply Z.ltb_lt; exact Hpos). revert I Hg. clear Hpos. intros I Hg.
  destruct Hst as [s u v s1 ok Hu Hv Huv Hou Hov Bu Bv Hb|s u v s1 Hu Hv Huv Hou Hov Bu Bv Hb|s p l1 l2 s1 ok Hp Hb].
  - (* decided immediately *)
    apply busy_false in Bu, Bv. unfold gated_begin in Hb. rewrite Hg in Hb. unfold contract_begin in Hb.
    destruct (f_block s u) as [a|] eqn:Eu, (f_block s v) as [b|] eqn:Ev; try discriminate.
    + destruct (Nat.eqb_spec a b) as [->|Hne]; inversion Hb; subst; [|exact I]. clear Hb.
      match goal with |- finv V F0 ?x => set (s2 := x) in * end.
      assert (G0 : forall q, sumZ (G q s2) V = sumZ (G q s) V).
      { intros q. rewrite (merge_G V s s2 u v (Some b) V_nodup Hu Hv Huv Hou Hov); unfold s2; simpl; try tauto.
        unfold isFixed. rewrite Eu, Ev. destruct (q b); lia. }
      apply (merge_inv s s2 u v (Some b) (f_pend s) I); unfold s2; simpl; try tauto.
      * intros x Hx _. apply upd_other. exact Hx.
      * rewrite upd_same. split; discriminate.
      * apply (iv_disj _ _ _ I).
      * intros b0. fold s2. rewrite (iv_bw _ _ _ I), !fixed_weight_G, G0. reflexivity.
      * fold s2. rewrite (iv_total _ _ _ I), !all_fixed_weight_G, G0. reflexivity.
    + inversion Hb; subst. clear Hb.
      match goal with |- finv V F0 ?x => set (s2 := x) in * end.
      assert (G0 : forall q, sumZ (G q s2) V = sumZ (G q s1) V).
      { intros q. rewrite (merge_G V s1 s2 u v None V_nodup Hu Hv Huv Hou Hov); unfold s2; simpl; try tauto. lia. }
      apply (merge_inv s1 s2 u v None (f_pend s1) I); unfold s2; simpl; try tauto.
      * pose proof (iv_cnt _ _ _ I u Hu Hou) as Hc. tauto.
      * apply (iv_disj _ _ _ I).
      * intros b0. fold s2. rewrite (iv_bw _ _ _ I), !fixed_weight_G, G0. reflexivity.
      * fold s2. rewrite (iv_total _ _ _ I), !all_fixed_weight_G, G0. reflexivity.
  - (* add_fetch *)
    apply busy_false in Bu, Bv. unfold gated_begin in Hb. rewrite Hg in Hb. unfold contract_begin in Hb.
    destruct (f_block s u) as [a|] eqn:Eu, (f_block s v) as [b|] eqn:Ev; try discriminate.
    + destruct (Nat.eqb a b); discriminate.
    + inversion Hb; subst; clear Hb. destruct I as [I1 I2 I3 I4 I5 I6 I7 I8 I9 I10].
      constructor; simpl; try assumption.
      * intros b. unfold upd. change (fixed_weight V _ b) with (fixed_weight V s b).
        change (pend_weight (?p :: ?r) b) with ((if Nat.eqb (p_blk p) b then p_delta p else 0) + pend_weight r b). simpl.
        rewrite (Nat.eqb_sym a b). destruct (Nat.eqb_spec b a) as [->|]; rewrite I1; lia.
      * intros p [<-|Hp]; [unfold pend_ok; simpl; tauto|apply I9; exact Hp].
      * constructor; [intros [C|C]; [congruence|contradiction]|]. constructor; assumption.
    + inversion Hb; subst; clear Hb. destruct I as [I1 I2 I3 I4 I5 I6 I7 I8 I9 I10].
      constructor; simpl; try assumption.
      * intros b0. unfold upd. change (fixed_weight V _ b0) with (fixed_weight V s b0).
        change (pend_weight (?p :: ?r) b0) with ((if Nat.eqb (p_blk p) b0 then p_delta p else 0) + pend_weight r b0). simpl.
        rewrite (Nat.eqb_sym b b0). destruct (Nat.eqb_spec b0 b) as [->|]; rewrite I1; lia.
      * intros p [<-|Hp]; [unfold pend_ok; simpl; tauto|apply I9; exact Hp].
      * constructor; [intros [C|C]; [congruence|contradiction]|]. constructor; assumption.
  - (* accept or revert *)
    pose proof (iv_disj _ _ _ I) as Hnd. rewrite Hp in Hnd. destruct (touched_remove l1 p l2 Hnd) as [Hnd' [Huv [Hnu Hnv]]].
    assert (Hpin : In p (f_pend s)) by (rewrite Hp; apply in_or_app; right; left; reflexivity).
    destruct (iv_pend _ _ _ I p Hpin) as [Hu [Hv [Hou [Hov Hk]]]].
    assert (Hsub : forall p0, In p0 (l1 ++ l2) -> In p0 (f_pend s)).
    { intros p0 H0. rewrite Hp. apply in_app_or in H0. apply in_or_app. simpl. tauto. }
    assert (Hpw : forall b, pend_weight (f_pend s) b = pend_weight (l1 ++ l2) b + (if Nat.eqb (p_blk p) b then p_delta p else 0)).
    { intros b. rewrite Hp, !pend_weight_app. unfold pend_weight at 2. cbn [sumZ]. fold (pend_weight l2 b). lia. }
    unfold contract_end in Hb. destruct (p_after p <=? Max (p_blk p)) eqn:Ea.
    + destruct (p_ubf p) eqn:Eu; inversion Hb; subst; clear Hb.
      * destruct Hk as [K1 [K2 K3]].
        match goal with |- finv V F0 ?x => set (s2 := x) in * end.
        assert (G0 : forall q, sumZ (G q s2) V = sumZ (G q s) V + (if q (p_blk p) then p_delta p else 0)).
        { intros q. rewrite (merge_G V s s2 (p_u p) (p_v p) (Some (p_blk p)) V_nodup Hu Hv Huv Hou Hov); unfold s2; simpl; try tauto.
          - unfold isFixed. rewrite K1, K2, K3. destruct (q (p_blk p)); lia.
          - intros x Hx _. apply upd_other. exact Hx.
          - apply upd_same. }
        apply (merge_inv s s2 (p_u p) (p_v p) (Some (p_blk p)) (l1 ++ l2) I); unfold s2; simpl; try tauto.
        -- intros x Hx _. apply upd_other. exact Hx.
        -- apply upd_same.
        -- intros x Hx _. apply upd_other. exact Hx.
        -- rewrite upd_same. split; discriminate.
        -- intros b. fold s2. rewrite (iv_bw _ _ _ I), Hpw, !fixed_weight_G, G0. lia.
        -- fold s2. rewrite (iv_total _ _ _ I), !all_fixed_weight_G, G0. reflexivity.
      * destruct Hk as [K1 [K2 K3]].
        match goal with |- finv V F0 ?x => set (s2 := x) in * end.
        assert (Euv : upd (f_block s) (p_v p) (Some (p_blk p)) (p_u p) = Some (p_blk p)) by (rewrite upd_other by exact Huv; exact K1).
        assert (G0 : forall q, sumZ (G q s2) V = sumZ (G q s) V + (if q (p_blk p) then p_delta p else 0)).
        { intros q. rewrite (merge_G V s s2 (p_u p) (p_v p) (Some (p_blk p)) V_nodup Hu Hv Huv Hou Hov); unfold s2; simpl; try tauto.
          - unfold isFixed. rewrite K1, K2, K3. destruct (q (p_blk p)); lia.
          - intros x _ Hx. apply upd_other. exact Hx. }
        apply (merge_inv s s2 (p_u p) (p_v p) (Some (p_blk p)) (l1 ++ l2) I); unfold s2; simpl; try tauto.
        -- intros x _ Hx. apply upd_other. exact Hx.
        -- pose proof (iv_cnt _ _ _ I (p_u p) Hu Hou) as Hc. rewrite K1 in Hc. rewrite Hc. split; discriminate.
        -- intros b. fold s2. rewrite (iv_bw _ _ _ I), Hpw, !fixed_weight_G, G0. lia.
        -- fold s2. rewrite (iv_total _ _ _ I), !all_fixed_weight_G, G0. reflexivity.
    + inversion Hb; subst; clear Hb. destruct I as [I1 I2 I3 I4 I5 I6 I7 I8 I9 I10].
      constructor; simpl; try assumption.
      * intros b. unfold upd. change (fixed_weight V _ b) with (fixed_weight V s b).
        destruct (Nat.eqb_spec b (p_blk p)) as [->|Hne]; rewrite I1, Hpw.
        -- rewrite Nat.eqb_refl. lia.
        -- destruct (Nat.eqb_spec (p_blk p) b); [congruence|]. lia.
      * intros p0 H0. apply I9. apply Hsub. exact H0.
Qed.

(** The block weight limit. *)
Definition limit_inv (s : fst_) : Prop := forall b, fixed_weight V s b + good_weight Max (f_pend s) b <= Max b.

Lemma pend_delta_nonneg s p : finv V F0 s -> In p (f_pend s) -> 0 <= p_delta p.
Proof.
  intros I Hp. destruct (iv_pend _ _ _ I p Hp) as [Hu [Hv [_ [_ Hk]]]].
  destruct (p_ubf p); destruct Hk as [_ [_ ->]]; apply (iv_nw _ _ _ I); assumption.
Qed.
Lemma fixed_weight_bw s s' b : finv V F0 s -> finv V F0 s' ->
  fixed_weight V s' b = fixed_weight V s b + (f_bw s' b - f_bw s b) - (pend_weight (f_pend s') b - pend_weight (f_pend s) b).
Proof. intros I I'. rewrite (iv_bw _ _ _ I b), (iv_bw _ _ _ I' b). lia. Qed.

(** The total never decreases while contracting. *)
Lemma fstep_total s s' : fstep V Max s s' -> finv V F0 s -> f_total s <= f_total s'.
Proof.
  intros Hst I. destruct Hst as [s u v s1 ok Hu Hv Huv Hou Hov Bu Bv Hb|s u v s1 Hu Hv Huv Hou Hov Bu Bv Hb|s p l1 l2 s1 ok Hp Hb].
  - assert (E : f_total s1 = f_total s).
    { unfold gated_begin in Hb. destruct (hasFixedVertices s); [|inversion Hb; reflexivity]. unfold contract_begin in Hb.
      destruct (f_block s u) as [a|], (f_block s v) as [c|]; try discriminate; [destruct (Nat.eqb a c)|]; inversion Hb; reflexivity. }
    destruct ok; cbn [merge f_total]; lia.
  - assert (E : f_total s1 = f_total s).
    { unfold gated_begin in Hb. destruct (hasFixedVertices s); [|inversion Hb; reflexivity]. unfold contract_begin in Hb.
      destruct (f_block s u) as [a|], (f_block s v) as [c|]; try discriminate; try (destruct (Nat.eqb a c)); inversion Hb; reflexivity. }
    lia.
  - assert (0 <= p_delta p) by (apply (pend_delta_nonneg s p I); rewrite Hp; apply in_or_app; right; left; reflexivity).
    unfold contract_end in Hb. destruct (p_after p <=? Max (p_blk p)); [destruct (p_ubf p)|]; inversion Hb; subst; cbn [merge f_total]; lia.
Qed.
Lemma fstep_limit s s' : fstep V Max s s' -> 0 < f_total s -> finv V F0 s -> limit_inv s -> limit_inv s'.
Proof.
  intros Hst Hpos I L. pose proof (fstep_inv s s' Hst Hpos I) as I'.
  assert (Hg : hasFixedVertices s = true) by (apply Z.ltb_lt; exact Hpos). revert I' L Hg. clear Hpos. intros I' L Hg. intros b. rewrite (fixed_weight_bw s s' b I I').
  specialize (L b). clear I'.
  destruct Hst as [s u v s1 ok Hu Hv Huv Hou Hov Bu Bv Hb|s u v s1 Hu Hv Huv Hou Hov Bu Bv Hb|s p l1 l2 s1 ok Hp Hb].
  - unfold gated_begin in Hb. rewrite Hg in Hb. unfold contract_begin in Hb. destruct (f_block s u) as [a|], (f_block s v) as [c|]; try discriminate;
      [destruct (Nat.eqb a c)|]; inversion Hb; subst; cbn [merge f_bw f_pend]; lia.
  - pose proof (good_le_pend (f_pend s) b (fun p Hp => pend_delta_nonneg s p I Hp)) as Hgp.
    pose proof (iv_bw _ _ _ I b) as Hbw.
    unfold gated_begin in Hb. rewrite Hg in Hb. unfold contract_begin in Hb. destruct (f_block s u) as [a|], (f_block s v) as [c|]; try discriminate.
    + destruct (Nat.eqb a c); discriminate.
    + inversion Hb; subst; clear Hb. simpl. unfold good_weight, pend_weight in *. cbn [sumZ p_blk p_delta p_after]. unfold upd.
      rewrite (Nat.eqb_sym a b). destruct (Nat.eqb_spec b a) as [->|]; cbn [andb]; [|lia].
      destruct (Z.leb_spec (f_bw s a + f_nw s v) (Max a)); lia.
    + inversion Hb; subst; clear Hb. simpl. unfold good_weight, pend_weight in *. cbn [sumZ p_blk p_delta p_after]. unfold upd.
      rewrite (Nat.eqb_sym c b). destruct (Nat.eqb_spec b c) as [->|]; cbn [andb]; [|lia].
      destruct (Z.leb_spec (f_bw s c + f_nw s u) (Max c)); lia.
  - assert (Hpw : pend_weight (f_pend s) b = pend_weight (l1 ++ l2) b + (if Nat.eqb (p_blk p) b then p_delta p else 0)).
    { rewrite Hp, !pend_weight_app. unfold pend_weight at 2. cbn [sumZ]. fold (pend_weight l2 b). lia. }
    assert (Hgw : good_weight Max (f_pend s) b = good_weight Max (l1 ++ l2) b +
              (if Nat.eqb (p_blk p) b && (p_after p <=? Max b) then p_delta p else 0)).
    { rewrite Hp, !good_weight_app. unfold good_weight at 2. cbn [sumZ]. fold (good_weight Max l2 b). lia. }
    unfold contract_end in Hb. destruct (p_after p <=? Max (p_blk p)) eqn:Ea.
    + assert (E : f_bw (if ok then merge s1 (p_u p) (p_v p) else s1) b = f_bw s b /\
                  f_pend (if ok then merge s1 (p_u p) (p_v p) else s1) = l1 ++ l2).
      { destruct (p_ubf p); inversion Hb; subst; split; reflexivity. }
      destruct E as [E1 E2]. rewrite E1, E2.
      destruct (Nat.eqb_spec (p_blk p) b) as [<-|]; cbn [andb] in Hgw; [rewrite Ea in Hgw|]; lia.
    + inversion Hb; subst; clear Hb. simpl. unfold upd. destruct (Nat.eqb_spec b (p_blk p)) as [->|Hne].
      * rewrite Nat.eqb_refl in *. cbn [andb] in Hgw. rewrite Ea in Hgw. lia.
      * destruct (Nat.eqb_spec (p_blk p) b); [congruence|]. cbn [andb] in Hgw. lia.
Qed.

Lemma finit_inv s : finit V F0 s -> finv V F0 s.
Proof.
  intros [J1 J2 J3 J4 J5 J6 J7 J8]. constructor.
  - intros b. rewrite J4, J5. unfold pend_weight. simpl. lia.
  - exact J6.
  - exact J7.
  - intros x Hx. rewrite J3. split; [exact Hx|apply J1; exact Hx].
  - intros x _ _. apply J3.
  - intros x b _ Hf. rewrite J3, J2. exact Hf.
  - intros u b Hu _ Hb. exists u. split; [exact Hu|split; [apply J3|]]. rewrite <- J2. exact Hb.
  - intros v Hv _. rewrite J8, J2 by exact Hv. destruct (F0 v); split; congruence.
  - rewrite J4. intros p [].
  - rewrite J4. constructor.
Qed.
Lemma freach_inv s0 s : freach V Max s0 s -> 0 < f_total s0 -> finv V F0 s0 -> limit_inv s0 ->
  0 < f_total s /\ finv V F0 s /\ limit_inv s.
Proof.
  intros Hr. induction Hr as [s|a b c Hr IH Hst]; intros P I L; [split; [|split]; assumption|].
  destruct (IH P I L) as [P1 [I1 L1]]. pose proof (fstep_total b c Hst I1).
  split; [lia|split; [apply (fstep_inv b c Hst P1 I1)|apply (fstep_limit b c Hst P1 I1 L1)]].
Qed.

(** C21 (concurrent part): for every interleaving of contractions starting from an uncontracted hypergraph whose fixed
    weight respects the limits and is positive (hasFixedVertices; see [C21_refuted_zero_weight] otherwise):
    - every vertex that was fixed to b is represented by an enabled node fixed to b (so no two vertices fixed to
      different blocks are merged), and an enabled node is only fixed if it represents such a vertex;
    - the weight of enabled nodes fixed to a block never exceeds the limit;
    - whenever no contraction is in progress, the reported weights are exactly these sums. *)
Theorem C21_fixed_vertices_concurrent s0 s :
  finit V F0 s0 -> 0 < all_fixed_weight V s0 -> (forall b, fixed_weight V s0 b <= Max b) -> freach V Max s0 s ->
  (forall x b, In x V -> F0 x = Some b -> f_on s (f_rep s x) = true /\ f_block s (f_rep s x) = Some b) /\
  (forall x y b c, In x V -> In y V -> F0 x = Some b -> F0 y = Some c -> f_rep s x = f_rep s y -> b = c) /\
  (forall u b, In u V -> f_on s u = true -> f_block s u = Some b -> exists x, In x V /\ f_rep s x = u /\ F0 x = Some b) /\
  (forall b, fixed_weight V s b <= Max b) /\
  (f_pend s = [] -> f_total s = all_fixed_weight V s /\ forall b, f_bw s b = fixed_weight V s b).
Proof.
  intros J Hpos Hlim Hr. destruct (freach_inv s0 s Hr) as [_ [I L]]; [rewrite (fi_total _ _ _ J); exact Hpos|exact (finit_inv s0 J)| |].
  { intros b. rewrite (fi_pend _ _ _ J). unfold good_weight. simpl. specialize (Hlim b). lia. }
  split; [|split; [|split; [|split]]].
  - intros x b Hx Hf. split; [apply (iv_rep _ _ _ I x Hx)|apply (iv_members _ _ _ I x b Hx Hf)].
  - intros x y b c Hx Hy Hfx Hfy Hrep. pose proof (iv_members _ _ _ I x b Hx Hfx) as A.
    pose proof (iv_members _ _ _ I y c Hy Hfy) as C. rewrite Hrep in A. congruence.
  - apply (iv_origin _ _ _ I).
  - intros b. specialize (L b). assert (0 <= good_weight Max (f_pend s) b); [|lia].
    apply sumZ_nonneg. intros p Hp. pose proof (pend_delta_nonneg s p I Hp).
    destruct (Nat.eqb (p_blk p) b && (p_after p <=? Max b)); lia.
  - intros Hp. split; [apply (iv_total _ _ _ I)|]. intros b. rewrite (iv_bw _ _ _ I b), Hp. unfold pend_weight. simpl. lia.
Qed.
End Inv.
