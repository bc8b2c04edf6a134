(** C82: the gain caches stay exact during n-level batch uncontraction. *)
From Coq Require Import List Arith ZArith Lia Bool Permutation Sorted.
From Verif Require Import Base INA INARep INAOps2 GainCache GainCacheProofs DynEdge DynEdgeSpec DynEdgeThms DynEdgeBatch DynEdgeRun DynEdgeProps
  DynGain DynGainSpec DynGainThms DynGainRun.
Import ListNotations.
Local Open Scope nat_scope.

(** One hyperedge in a batch: its weight, its original pins and the
    contractions in it (contraction phase), and its state before and after. *)
Record hrun := mkHrun { h_w : Z; h_P0 : list nat; h_ops : list eop; h_e0 : edge; h_os : list eop; h_s : pst; h_s' : pst }.
(** it was contracted, is now before batch [b], and does the batch [b]: all its
    tasks, interleaved in any way *)
Record in_batch (rank par : nat -> nat) (b0 b : nat) (part : nat -> nat) (h : hrun) : Prop := {
  ib_nd : NoDup (h_P0 h);
  ib_run : erun (h_P0 h) (h_ops h) (h_e0 h);
  ib_ord : order_ok (h_P0 h) (h_ops h) rank par b0;
  ib_urun : urun (h_ops h) (h_e0 h) rank par b0 b part (h_s h);
  ib_os : Permutation (h_os h) (filter (fun o => rank (o_v o) =? b) (h_ops h));
  ib_batch : batch_run rank b par (setparts rank b par part) (h_s h) (h_os h) (h_s' h) }.
(** the callbacks of this batch *)
Definition new_events (h : hrun) : list ev := skipn (length (p_log (h_s h))) (p_log (h_s' h)).
Definition before (E : list hrun) := map (fun h => (h_w h, valid (p_edge (h_s h)))) E.
Definition after (E : list hrun) := map (fun h => (h_w h, valid (p_edge (h_s' h)))) E.

Lemma dpen_perm l l' x : Permutation l l' -> dpen l x = dpen l' x.
Proof. intros P. unfold dpen. apply sumZ_perm. exact P. Qed.
Lemma dben_perm l l' x b : Permutation l l' -> dben l x b = dben l' x b.
Proof. intros P. unfold dben. apply sumZ_perm. exact P. Qed.

Section Any.
Variables (U : upolicy) (pt bt : Z -> Z -> Z).
Hypothesis UE : up_exact U pt bt.

Lemma batch_exact k rank par b0 b part E c adds :
  (forall p, part p < k) -> (forall h, In h E -> in_batch rank par b0 b part h) ->
  let part' := setparts rank b par part in
  Permutation adds (flat_map (fun h => flat_map (up_adds U k part' (h_w h)) (new_events h)) E) ->
  cache_exact pt bt k part (before E) c -> cache_exact pt bt k part' (after E) (fold_left do_add adds c).
Proof.
  intros Hk HE. cbv zeta. intros P [C1 C2]. set (part' := setparts rank b par part) in *.
  assert (G : forall h, In h E ->
     (forall y, dpen (flat_map (up_adds U k part' (h_w h)) (new_events h)) y
        = (cpen pt part' (h_w h) (valid (p_edge (h_s' h))) y - cpen pt part (h_w h) (valid (p_edge (h_s h))) y)%Z) /\
     (forall y d, d < k -> dben (flat_map (up_adds U k part' (h_w h)) (new_events h)) y d
        = (cben bt part' (h_w h) (valid (p_edge (h_s' h))) y d - cben bt part (h_w h) (valid (p_edge (h_s h))) y d)%Z)).
  { intros h Hh. destruct (HE h Hh) as [A1 A2 A3 A4 A5 A6]. destruct (erun_inv _ _ _ A1 A2) as [Ci G].
    pose proof (urun_inv _ _ _ _ _ G A3 _ _ _ _ Ci A4) as Ui.
    destruct (batch_gain U pt bt UE k (h_w h) _ _ _ _ _ G A3 b part (h_s h) (h_os h) (h_s' h) Hk Ui A5 A6) as (Lg & EL & D1 & D2).
    unfold new_events. rewrite EL, skipn_app, skipn_all, Nat.sub_diag. cbn [app skipn]. split; [exact D1|exact D2]. }
  split.
  - intros x. rewrite do_adds_pen, (dpen_perm _ _ x P), C1. unfold before, after, dpen. rewrite !sumZ_map. cbn [fst snd].
    rewrite sumZ_flat_map. rewrite (sumZ_ext (fun h => sumZ (dpen1 x) (flat_map (up_adds U k part' (h_w h)) (new_events h))) (fun h => Z.sub (cpen pt part' (h_w h) (valid (p_edge (h_s' h))) x) (cpen pt part (h_w h) (valid (p_edge (h_s h))) x))).
    + rewrite sumZ_minus. lia.
    + intros h Hh. exact (proj1 (G h Hh) x).
  - intros x d Hd. rewrite do_adds_ben, (dben_perm _ _ x d P), C2 by exact Hd. unfold before, after, dben. rewrite !sumZ_map. cbn [fst snd].
    rewrite sumZ_flat_map. rewrite (sumZ_ext (fun h => sumZ (dben1 x d) (flat_map (up_adds U k part' (h_w h)) (new_events h))) (fun h => Z.sub (cben bt part' (h_w h) (valid (p_edge (h_s' h))) x d) (cben bt part (h_w h) (valid (p_edge (h_s h))) x d))).
    + rewrite sumZ_minus. lia.
    + intros h Hh. exact (proj2 (G h Hh) x d Hd).
Qed.
End Any.

(** If the gain cache is exact before a batch, it is exact after it - for the
    new pins and blocks - whatever the interleaving inside the hyperedges and
    of the additions to the cache. *)
Theorem C82_km1 k rank par b0 b part E c adds :
  (forall p, part p < k) -> (forall h, In h E -> in_batch rank par b0 b part h) ->
  let part' := setparts rank b par part in
  Permutation adds (flat_map (fun h => flat_map (up_adds km1_up k part' (h_w h)) (new_events h)) E) ->
  cache_exact km1_pt km1_bt k part (before E) c -> cache_exact km1_pt km1_bt k part' (after E) (fold_left do_add adds c).
Proof. exact (batch_exact _ _ _ km1_up_exact k rank par b0 b part E c adds). Qed.
Theorem C82_cut k rank par b0 b part E c adds :
  (forall p, part p < k) -> (forall h, In h E -> in_batch rank par b0 b part h) ->
  let part' := setparts rank b par part in
  Permutation adds (flat_map (fun h => flat_map (up_adds cut_up k part' (h_w h)) (new_events h)) E) ->
  cache_exact cut_pt cut_bt k part (before E) c -> cache_exact cut_pt cut_bt k part' (after E) (fold_left do_add adds c).
Proof. exact (batch_exact _ _ _ cut_up_exact k rank par b0 b part E c adds). Qed.
Theorem C82_soed k rank par b0 b part E c adds :
  (forall p, part p < k) -> (forall h, In h E -> in_batch rank par b0 b part h) ->
  let part' := setparts rank b par part in
  Permutation adds (flat_map (fun h => flat_map (up_adds soed_up k part' (h_w h)) (new_events h)) E) ->
  cache_exact soed_pt soed_bt k part (before E) c -> cache_exact soed_pt soed_bt k part' (after E) (fold_left do_add adds c).
Proof. exact (batch_exact _ _ _ soed_up_exact k rank par b0 b part E c adds). Qed.

(** What exactness means for a caller: the gain of moving node [x] to block
    [b], benefit minus penalty, is the sum over the hyperedges of the change. *)
Theorem C82_km1_means k part H c x t : cache_exact km1_pt km1_bt k part H c -> t < k ->
  (ben c x t - pen c x)%Z =
  sumZ (fun e => if memb x (snd e) then
     Z.mul (fst e) (Z.sub (if 0 <? counts part (snd e) t then 1%Z else 0%Z) (if 1 <? counts part (snd e) (part x) then 1%Z else 0%Z)) else 0%Z) H.
Proof.
  intros [C1 C2] Ht. rewrite C1, (C2 x t Ht).
  assert (X : forall e, In e H -> (if memb x (snd e) then
     Z.mul (fst e) (Z.sub (if 0 <? counts part (snd e) t then 1%Z else 0%Z) (if 1 <? counts part (snd e) (part x) then 1%Z else 0%Z)) else 0%Z)
     = Z.sub (cben km1_bt part (fst e) (snd e) x t) (cpen km1_pt part (fst e) (snd e) x)).
  { intros e _. unfold cben, cpen, km1_bt, km1_pt. destruct (memb x (snd e)); [|reflexivity].
    destruct (Nat.ltb_spec 0 (counts part (snd e) t)), (Nat.ltb_spec 1 (counts part (snd e) (part x))); bc; cbn [Z.b2z]; lia. }
  rewrite (sumZ_ext _ _ _ X), sumZ_minus. reflexivity.
Qed.

(** ** Example: the hyperedge of C81_example (weight 3), first batch *)
Definition exS0 : pst := mkPst (mkEdge (valid (fst exE3) ++ [4;3]) (e_size (fst exE3))) (counts (fun _ => 1) (valid (fst exE3))) [].
Definition exS1 : pst := restore_one exPar (fun _ => 1) (restore_one exPar (fun _ => 1) exS0 4) 3.
Definition exH : hrun := mkHrun 3 [2;3;4] exOps (fst exE3) [mkOp 1 3 true; mkOp 1 4 true] exS0 exS1.
Definition exC : cache := mkCache (fun _ => 0%Z) (fun x b => if (x =? 1) && (b =? 1) then 3%Z else 0%Z).
Theorem C82_example :
  in_batch exRank exPar 1 1 (fun _ => 1) exH /\ cache_exact km1_pt km1_bt 2 (fun _ => 1) (before [exH]) exC /\
  let c' := fold_left do_add (flat_map (up_adds km1_up 2 (fun _ => 1) 3) (new_events exH)) exC in
  map (pen c') [1;2;3;4] = [3;0;3;3]%Z /\ map (fun x => ben c' x 1) [1;2;3;4] = [3;0;3;3]%Z.
Proof.
  split; [|split].
  - constructor; cbn [h_w h_P0 h_ops h_e0 h_os h_s h_s' exH].
    + repeat constructor; cbn; intuition discriminate.
    + exact exRun.
    + exact exOrder.
    + apply ur_start; [vm_compute; apply Permutation_refl|repeat constructor].
    + vm_compute. apply Permutation_refl.
    + exists RDone. split; [|discriminate].
      eapply bss_cons; [apply (bs_first _ _ _ _ _ [mkOp 1 3 true] (mkOp 1 4 true) []); reflexivity|].
      eapply bss_cons; [apply bs_restore with (pin := 4); vm_compute; reflexivity|].
      eapply bss_cons; [apply (bs_later _ _ _ _ _ [] (mkOp 1 3 true) []); [reflexivity|discriminate]|].
      eapply bss_cons; [apply bs_restore with (pin := 3); vm_compute; reflexivity|].
      eapply bss_cons; [apply bs_stop; intros pin X; vm_compute in X; discriminate|].
      apply bss_refl.
  - assert (EB : before [exH] = [(3%Z, [1])]) by (vm_compute; reflexivity). rewrite EB. split.
    + intros x. cbn [sumZ fst snd exC pen]. unfold cpen, memb. cbn [existsb]. rewrite orb_false_r. destruct (x =? 1); reflexivity.
    + intros x b Hb. cbn [sumZ fst snd exC ben]. unfold cben, memb. cbn [existsb]. rewrite orb_false_r.
      destruct (x =? 1); [|reflexivity]. destruct b as [|[|b]]; [reflexivity|reflexivity|lia].
  - cbv zeta. split; vm_compute; reflexivity.
Qed.

(** The cut gain cache is kept exact for single-pin hyperedges too, but only
    because their contribution is 0: in the example the cut penalty of the only
    pin goes from 0 to 3 when the hyperedge gets a second pin. *)
Theorem C82_cut_single_pin :
  cpen cut_pt (fun _ => 1) 3 [1] 1 = 0%Z /\ cpen cut_pt (fun _ => 1) 3 [1;4] 1 = 3%Z /\
  dpen (cut_restore 2 (fun _ => 1) 3 (mkEv true 1 4 [1;4] (counts (fun _ => 1) [1;4]))) 1 = 3%Z.
Proof. repeat split; vm_compute; reflexivity. Qed.
