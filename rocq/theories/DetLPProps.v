(** DetLPProps.v - deterministic label propagation: the properties C64, C65 and C66. *)
From Verif Require Import Base Spec SpecLemmas PHG PHGProofs Conc Objective Metrics PropsA Scan WfCheck ParLoop Prefixes DetLP DetLPApply DetLP1 DetLPThms DetLPRun DetLPTotal.

(** What the refiner is given: non-negative node weights with a total and block weight limits that fit into 32 bits, a candidate
    function that proposes existing blocks, and node ranges without repetitions. *)
Record lp_input (H : hypergraph) (k : nat) (L : nat -> Z) (cand : partition -> nat -> option (nat * Z)) (ranges : nat -> list nat -> nat -> list (list nat)) : Prop := {
  li_nw : forall v, 0 <= nw H v;
  li_total : total_weight H <= MAXW;
  li_limit : forall b, (b < k)%nat -> L b <= MAXW;
  li_cand : forall P u to g, cand P u = Some (to, g) -> (to < k)%nat;
  li_ranges : forall it ac n rng, NoDup ac -> incl ac (nodes H) -> In rng (ranges it ac n) -> NoDup rng /\ incl rng (nodes H)
}.
Definition balanced (H : hypergraph) (k : nat) (L : nat -> Z) (P : partition) : Prop := forall b, (b < k)%nat -> block_weight H P b <= L b.

(** C64: the refiner never makes the objective worse, reports the exact improvement, keeps a balanced partition balanced and leaves
    fixed vertices alone, under every schedule. *)
Theorem C64_never_worse : forall H k L fixed cand o thr useact ranges max_iter n0 s s' g,
  lp_input H k L cand ranges -> started H s -> pk s = k ->
  lp_refine H k L fixed cand o thr useact ranges max_iter n0 s s' g ->
  started H s' /\ pk s' = k /\
  obj_spec o H (part s') = obj_spec o H (part s) - g /\ 0 <= g /\
  (balanced H k L (part s) -> balanced H k L (part s')) /\
  (forall v, fixed v = true -> part s' v = part s v).
Proof.
  intros H k L fixed cand o thr useact ranges mi n0 s s' g [A B C D E] ST K R.
  destruct (iters_ok H k L fixed cand o thr useact ranges A B C D E mi 0 n0 [] s s' g R (NoDup_nil _) (fun x X => match X with end) (conj ST K)) as ([S' K'] & G & Q & W & F).
  split; [exact S'|]. split; [exact K'|]. split; [lia|]. split; [exact G|]. split; [exact W|exact F].
Qed.
(** The refiner can always run to completion: in particular the loop that reverts moves ends and stays inside its vector. *)
Theorem C64_completes : forall H k L fixed cand o thr useact ranges max_iter n0 s,
  lp_input H k L cand ranges -> started H s -> pk s = k ->
  exists s' g, lp_refine H k L fixed cand o thr useact ranges max_iter n0 s s' g.
Proof.
  intros H k L fixed cand o thr useact ranges mi n0 s [A B C D E] ST K.
  apply (iters_total H k L fixed cand o A B C D thr useact ranges E mi 0 n0 [] s (NoDup_nil _) (fun x X => match X with end) (conj ST K)).
Qed.
Theorem C64_revert_loop_ends : forall H k L (sm : list lmv) (pw : nat -> Z),
  (forall v, 0 <= nw H v) -> (forall m, In m sm -> (lfrom m < k)%nat /\ (lto m < k)%nat /\ lfrom m <> lto m) ->
  exists fuel val, keep H k L fuel sm pw = Some val /\
    ((forall b, (b < k)%nat -> pw b <= L b) -> forall b, (b < k)%nat -> pw b + delta H (valid_moves sm val) b <= L b).
Proof.
  intros H k L sm pw W MK. destruct (keep_total H k L W sm pw MK) as (fuel & val & KP). exists fuel, val. split; [exact KP|].
  intros B b Hb. rewrite DetLP2.delta_valid. apply (keep_balanced H k L W sm pw MK fuel val B KP b Hb).
Qed.

(** C65: the result does not depend on the schedule. *)
Theorem C65_deterministic : forall H k L fixed cand o thr useact ranges max_iter n0 s1 s2 s1' s2' g1 g2,
  lp_input H k L cand ranges -> started H s1 -> started H s2 -> pk s1 = k -> pk s2 = k -> part s1 = part s2 ->
  lp_refine H k L fixed cand o thr useact ranges max_iter n0 s1 s1' g1 ->
  lp_refine H k L fixed cand o thr useact ranges max_iter n0 s2 s2' g2 ->
  part s1' = part s2' /\ g1 = g2.
Proof.
  intros H k L fixed cand o thr useact ranges mi n0 s1 s2 s1' s2' g1 g2 [A B C D E] ST1 ST2 K1 K2 EP R1 R2.
  apply (iters_det H k L fixed cand o thr useact ranges A B C D E mi 0 n0 [] s1 s1' g1 R1 [] s2 s2' g2 (Permutation_refl _) (NoDup_nil _) (fun x X => match X with end) (conj ST1 K1) (conj ST2 K2) EP R2).
Qed.
(** The active nodes after executing moves: the pins of the small hyperedges of the moved nodes, each exactly once. *)
Theorem C65_active_nodes : forall H thr ms a, activate_batch H thr ms act0 a ->
  forall v, aq a v = 1%nat /\ (exists m e, In m ms /\ In e (inc H (ln m)) /\ (length (pins H e) <= thr)%nat /\ In v (pins H e)) \/
            aq a v = 0%nat /\ ~ (exists m e, In m ms /\ In e (inc H (ln m)) /\ (length (pins H e) <= thr)%nat /\ In v (pins H e)).
Proof.
  intros H thr ms a AB v. destruct (batch_spec H thr ms act0 a (closed0 H) AB) as (_ & V & Q & _). rewrite Q. cbn [aq vm act0 Nat.add negb]. rewrite andb_true_r.
  assert (X : vm a v = true <-> exists m e, In m ms /\ In e (inc H (ln m)) /\ (length (pins H e) <= thr)%nat /\ In v (pins H e)).
  { rewrite V. cbn [vm act0]. split.
    - intros [Y|(e & [S (m & Hm & He)] & Hv)]; [discriminate|]. exists m, e. auto.
    - intros (m & e & Hm & He & S & Hv). right. exists e. split; [split; [exact S|exists m; auto]|exact Hv]. }
  destruct (vm a v); [left; split; [reflexivity|apply X; reflexivity]|right; split; [reflexivity|]]. intros Y. apply X in Y. discriminate.
Qed.
(** One sub-round is a sequential function of the partition. *)
Theorem C65_subround_function : forall H k L fixed cand o rng s s' g rev nm moved,
  (forall v, 0 <= nw H v) -> total_weight H <= MAXW -> (forall b, (b < k)%nat -> L b <= MAXW) -> (forall P u to g, cand P u = Some (to, g) -> (to < k)%nat) ->
  started H s -> pk s = k -> NoDup rng -> incl rng (nodes H) -> lp_sub H k L fixed cand o rng s s' g rev nm moved ->
  exists fuel, sub_fun H k L fixed cand o fuel rng (part s) = Some (part s', g, rev, nm, moved).
Proof.
  intros H k L fixed cand o rng s s' g rev nm moved A B C D ST K N I X.
  destruct (sub_total H k L fixed cand o A B C D rng s (conj ST K) (conj N I)) as (fuel & t & h & rvt & nm' & mv & Y & E). exists fuel.
  destruct (sub_det H k L fixed cand o A B C D rng s s' g rev nm moved s t h rvt nm' mv (conj ST K) (conj ST K) eq_refl (conj N I) X Y) as (-> & -> & -> & -> & ->). exact E.
Qed.

(** C66: the search for the longest prefixes. *)
Theorem C66_recursive_is_sequential : forall c1 c2 lb ub cutoff n1 n2 fuel,
  (forall i j, (i <= j)%nat -> c1 i <= c1 j) -> (forall i j, (i <= j)%nat -> c2 i <= c2 j) -> lb <= 0 <= ub -> (2 <= cutoff)%nat -> (n1 + n2 < fuel)%nat ->
  recf c1 c2 lb ub cutoff fuel 0 n1 0 n2 = seqs c1 c2 lb ub 0 n1 0 n2.
Proof. intros c1 c2 lb ub cutoff n1 n2 fuel M1 M2 [LB UB] CO F. apply recf_seqs; try assumption; lia. Qed.
Theorem C66_maximal_prefixes : forall c1 c2 lb ub cutoff n1 n2 fuel,
  (forall i j, (i <= j)%nat -> c1 i <= c1 j) -> (forall i j, (i <= j)%nat -> c2 i <= c2 j) -> c1 0%nat = 0 -> c2 0%nat = 0 -> lb <= 0 <= ub -> (2 <= cutoff)%nat -> (n1 + n2 < fuel)%nat ->
  exists x y, recf c1 c2 lb ub cutoff fuel 0 n1 0 n2 = Some (x, y) /\ (x <= n1)%nat /\ (y <= n2)%nat /\ lb <= c1 x - c2 y <= ub /\
    forall x' y', (x' <= n1)%nat -> (y' <= n2)%nat -> lb <= c1 x' - c2 y' <= ub -> (x' <= x)%nat /\ (y' <= y)%nat.
Proof.
  intros c1 c2 lb ub cutoff n1 n2 fuel M1 M2 Z1 Z2 [LB UB] CO F. rewrite (C66_recursive_is_sequential c1 c2 lb ub cutoff n1 n2 fuel M1 M2 (conj LB UB) CO F).
  destruct (seqs c1 c2 lb ub 0 n1 0 n2) as [[x y]|] eqn:E.
  - apply seqs_some with (n := (n1 + n2)%nat) in E; try assumption; try lia. destruct E as (E1 & E2 & E3 & E4). apply feas_spec in E3. unfold bal in E3.
    exists x, y. split; [reflexivity|]. split; [lia|]. split; [lia|]. split; [exact E3|]. intros x' y' Hx Hy Hf. apply E4; [exact Hx|exact Hy|]. apply feas_spec. exact Hf.
  - exfalso. revert E. apply seqs_found with (n := (n1 + n2)%nat); try assumption; try lia. apply feas_spec. unfold bal. lia.
Qed.
(** Without a non-negative budget the search may miss existing solutions: 12 units of weight want to leave the overloaded block and 5
    want to enter it; letting only the 12 leave satisfies the bounds, but nothing is found. *)
Theorem C66_refuted_overloaded : exists c1 c2 lb ub n1 n2,
  (forall i j, (i <= j)%nat -> c1 i <= c1 j) /\ (forall i j, (i <= j)%nat -> c2 i <= c2 j) /\ c1 0%nat = 0 /\ c2 0%nat = 0 /\
  (exists x y, (x <= n1)%nat /\ (y <= n2)%nat /\ lb <= c1 x - c2 y <= ub) /\ seqs c1 c2 lb ub 0 n1 0 n2 = None.
Proof.
  exists (fun i => match i with O => 0 | _ => 5 end), (fun i => match i with O => 0 | _ => 12 end), (-20), (-10), 1%nat, 1%nat.
  split; [intros [|i] [|j]; lia|]. split; [intros [|i] [|j]; lia|]. split; [reflexivity|]. split; [reflexivity|]. split; [exists 0%nat, 1%nat; lia|]. vm_compute. reflexivity.
Qed.

(** *** Concrete instances *)
(** The consistent state with a given partition. *)
Definition state_of (H : hypergraph) (k : nat) (P : partition) : phg :=
  mkPHG k P (block_weight H P) (pin_count H P) (fun e b => 0 <? pin_count H P e b).
Lemma state_of_started H k P : wf_hg H -> (forall v b, P v = Some b -> (b < k)%nat) -> complete H P k -> started H (state_of H k P).
Proof. intros WF B C. split; [exact WF|]. split; [|exact C]. constructor; cbn; auto. Qed.
(** The move with the largest gain (the lowest block among several). *)
Definition best_move (H : hypergraph) (k : nat) (o : objective) (P : partition) (u : nat) : option (nat * Z) :=
  fold_left (fun best b => let g := obj_spec o H P - obj_spec o H (move P u b) in
    match best with Some (b0, g0) => if g0 <? g then Some (b, g) else best | None => if 0 <? g then Some (b, g) else None end) (seq 0 k) None.
Lemma best_move_k H k o P u to g : best_move H k o P u = Some (to, g) -> (to < k)%nat.
Proof.
  unfold best_move. set (f := fun best b => _).
  assert (X : forall l acc, (forall b g, acc = Some (b, g) -> (b < k)%nat) -> (forall b, In b l -> (b < k)%nat) -> forall b g, fold_left f l acc = Some (b, g) -> (b < k)%nat).
  { induction l as [|a l IH]; intros acc HA HL b g0; [apply HA|]. cbn [fold_left]. apply IH; [|intros; apply HL; right; assumption].
    intros b' g' E. unfold f in E. destruct acc as [[b0 g1]|]; destruct (_ <? _) in E; try discriminate; inversion E; subst; try (apply HL; left; reflexivity). eapply HA. reflexivity. }
  apply X; [discriminate|]. intros b Hb. apply in_seq in Hb. lia.
Qed.
(** Three blocks of limit 3: the first stage swaps nodes 1 and 3, the second one admits one of two nodes to block 2. *)
Definition lpH : hypergraph := {| nodes := seq 0 8; edges := seq 0 4;
  pins := fun e => nth e [[0;4];[2;5];[1;6];[3;7]]%nat []; inc := fun v => nth v [[0];[2];[1];[3];[0];[1];[2];[3]]%nat [];
  nw := fun _ => 1; ew := fun _ => 1 |}.
Definition lpP : partition := fun v => nth v [Some 0;Some 0;Some 1;Some 1;Some 2;Some 2;Some 1;Some 0]%nat None.
Definition lp_ranges (it : nat) (ac : list nat) (n : nat) : list (list nat) := [[0;1;2;3];[4;5;6;7]]%nat.
Lemma lp_input_ex : lp_input lpH 3 (fun _ => 3) (best_move lpH 3 Okm1) lp_ranges.
Proof.
  constructor; [intros; cbn; lia|vm_compute; discriminate|intros; unfold MAXW; lia|intros P u to g; apply best_move_k|].
  intros it ac n rng _ _ [<-|[<-|[]]]; (split; [apply nodupb_sound; reflexivity|]); intros x; cbn; intuition.
Qed.
Lemma lp_started : started lpH (state_of lpH 3 lpP).
Proof.
  apply state_of_started; [apply wf_hgb_sound; vm_compute; reflexivity| |].
  - intros v b. unfold lpP. do 8 (destruct v as [|v]; [cbn; intros E; inversion E; lia|]). cbn. destruct v; discriminate.
  - intros v Hv. cbn in Hv. destruct Hv as [<-|[<-|[<-|[<-|[<-|[<-|[<-|[<-|[]]]]]]]]]; cbn; eexists; (split; [reflexivity|lia]).
Qed.
Theorem C64_example : balanced lpH 3 (fun _ => 3) lpP /\
  exists s' g rev nm moved, lp_sub lpH 3 (fun _ => 3) (fun _ => false) (best_move lpH 3 Okm1) Okm1 [0;1;2;3]%nat (state_of lpH 3 lpP) s' g rev nm moved /\
    g = 3 /\ map (part s') (seq 0 8) = [Some 2;Some 1;Some 1;Some 0;Some 2;Some 2;Some 1;Some 0]%nat /\ balanced lpH 3 (fun _ => 3) (part s').
Proof.
  assert (B : balanced lpH 3 (fun _ => 3) lpP).
  { intros b Hb. destruct b as [|[|[|b]]]; [vm_compute; discriminate..|lia]. }
  split; [exact B|]. destruct lp_input_ex as [A1 A2 A3 A4 A5].
  assert (RG : range_ok lpH [0;1;2;3]%nat) by (split; [apply nodupb_sound; reflexivity|intros x; cbn; intuition]).
  destruct (sub_total lpH 3 (fun _ => 3) (fun _ => false) (best_move lpH 3 Okm1) Okm1 A1 A2 A3 A4 [0;1;2;3]%nat (state_of lpH 3 lpP) (conj lp_started eq_refl) RG) as (fuel & s' & g & rev & nm & mv & S & E).
  exists s', g, rev, nm, mv. split; [exact S|].
  pose proof (sub_ok lpH 3 (fun _ => 3) (fun _ => false) (best_move lpH 3 Okm1) Okm1 A1 A2 A3 A4 [0;1;2;3]%nat (state_of lpH 3 lpP) s' g rev nm mv (conj lp_started eq_refl) RG S) as (_ & _ & _ & W & _).
  destruct (sub_fun lpH 3 (fun _ => 3) (fun _ => false) (best_move lpH 3 Okm1) Okm1 20 [0;1;2;3]%nat lpP) as [r|] eqn:E2; [|vm_compute in E2; discriminate].
  change (part (state_of lpH 3 lpP)) with lpP in E. pose proof (sub_fun_unique _ _ _ _ _ _ _ _ _ _ _ _ E2 E) as EQ.
  assert (X : option_map (fun r => let '(P, g, _, _, _) := r in (map P (seq 0 8), g)) (sub_fun lpH 3 (fun _ => 3) (fun _ => false) (best_move lpH 3 Okm1) Okm1 20 [0;1;2;3]%nat lpP) =
     Some ([Some 2;Some 1;Some 1;Some 0;Some 2;Some 2;Some 1;Some 0]%nat, 3)) by (vm_compute; reflexivity).
  rewrite E2, EQ in X. cbn [option_map] in X. assert (X1 := f_equal (option_map fst) X). assert (X2 := f_equal (option_map snd) X). cbn [option_map fst snd] in X1, X2.
  split; [congruence|]. split; [congruence|]. exact (W B).
Qed.
(** An overloaded block into which three other blocks send nodes: the int32 budget -1 is divided as an unsigned number, so that the
    bound becomes 1431655765, and the overloaded block grows from weight 2 to 5 at a limit of 1. *)
Definition fH : hypergraph := {| nodes := seq 0 4; edges := seq 0 3;
  pins := fun e => nth e [[0;3];[1;3];[2;3]]%nat []; inc := fun v => nth v [[0];[1];[2];[0;1;2]]%nat [];
  nw := fun v => if Nat.eqb v 3 then 2 else 1; ew := fun _ => 1 |}.
Definition fP : partition := fun v => nth v [Some 0;Some 1;Some 2;Some 3]%nat None.
Lemma f_started : started fH (state_of fH 4 fP).
Proof.
  apply state_of_started; [apply wf_hgb_sound; vm_compute; reflexivity| |].
  - intros v b. unfold fP. do 4 (destruct v as [|v]; [cbn; intros E; inversion E; lia|]). cbn. destruct v; discriminate.
  - intros v Hv. cbn in Hv. destruct Hv as [<-|[<-|[<-|[<-|[]]]]]; cbn; eexists; (split; [reflexivity|lia]).
Qed.
Theorem C64_refuted_overloaded : ubound (-1) 3 = 1431655765 /\ ubound (-1) 2 = -1 /\
  exists H k L s s' g rev nm moved b, started H s /\ pk s = k /\ (b < k)%nat /\
    lp_sub H k L (fun _ => false) (best_move H k Okm1) Okm1 [0;1;2]%nat s s' g rev nm moved /\
    L b < block_weight H (part s) b /\ block_weight H (part s) b < block_weight H (part s') b.
Proof.
  split; [reflexivity|]. split; [reflexivity|]. exists fH, 4%nat, (fun _ => 1), (state_of fH 4 fP).
  assert (RG : range_ok fH [0;1;2]%nat) by (split; [apply nodupb_sound; reflexivity|intros x; cbn; intuition]).
  destruct (sub_total fH 4 (fun _ => 1) (fun _ => false) (best_move fH 4 Okm1) Okm1 ltac:(intros v; cbn; destruct (Nat.eqb v 3); lia) ltac:(vm_compute; discriminate) ltac:(intros; unfold MAXW; lia)
    (best_move_k fH 4 Okm1) [0;1;2]%nat (state_of fH 4 fP) (conj f_started eq_refl) RG) as (fuel & s' & g & rev & nm & mv & S & E).
  exists s', g, rev, nm, mv, 3%nat. split; [exact f_started|]. split; [reflexivity|]. split; [lia|]. split; [exact S|]. split; [vm_compute; reflexivity|].
  destruct (sub_fun fH 4 (fun _ => 1) (fun _ => false) (best_move fH 4 Okm1) Okm1 20 [0;1;2]%nat fP) as [r|] eqn:E2; [|vm_compute in E2; discriminate].
  change (part (state_of fH 4 fP)) with fP in *. pose proof (sub_fun_unique _ _ _ _ _ _ _ _ _ _ _ _ E2 E) as EQ.
  assert (X : option_map (fun r => let '(P, g, _, _, _) := r in block_weight fH P 3) (sub_fun fH 4 (fun _ => 1) (fun _ => false) (best_move fH 4 Okm1) Okm1 20 [0;1;2]%nat fP) = Some 5) by (vm_compute; reflexivity).
  rewrite E2, EQ in X. cbn [option_map] in X. assert (X1 : block_weight fH (part s') 3 = 5) by congruence. rewrite X1. vm_compute. reflexivity.
Qed.
