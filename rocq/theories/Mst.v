(** Mst.v - TargetGraph::computeWeightOfMSTOnMetricCompletion (target_graph.cpp:105-158), TargetGraph::distance(set) with its cache
    (target_graph.cpp:64-103, target_graph.h:232-239). *)
From Verif Require Import Base Sorting Weights TargetSpec TargetGraph TargetIndex SteinerTrees Steiner.

(** ** The model *)
Definition INT_MAX : Z := 2 ^ 31 - 1.
(** std::priority_queue with std::greater on pairs: top is the lexicographically smallest pair; equal pairs are indistinguishable. *)
Definition pleb (x y : Z * nat) : bool := (fst x <? fst y) || ((fst x =? fst y) && (snd x <=? snd y)%nat).
Fixpoint pop_min (l : list (Z * nat)) : option ((Z * nat) * list (Z * nat)) :=
  match l with
  | [] => None
  | x :: r => match pop_min r with
              | None => Some (x, [])
              | Some (y, r') => if pleb x y then Some (x, r) else Some (y, x :: r')
              end
  end.
(** The lambda push (:117-128) for the blocks in cur_blocks. *)
Definition push_one (n : nat) (T : nat -> Z) (u : nat) (s : (nat -> Z) * list (Z * nat)) (v : nat) : (nat -> Z) * list (Z * nat) :=
  let d := T (pidx n u v) in
  if d <? fst s v then (upd (fst s) v d, (d, v) :: snd s) else s.
Definition push (n : nat) (T : nat -> Z) (u : nat) (rem : bset) (s : (nat -> Z) * list (Z * nat)) := fold_left (push_one n T u) (elems n rem) s.
(** The main loop (:140-152). *)
Fixpoint prim_loop (fuel n : nat) (T : nat -> Z) (rem : bset) (s : (nat -> Z) * list (Z * nat)) (res : Z) : option Z :=
  match fuel with
  | O => None
  | S fuel =>
    match pop_min (snd s) with
    | None => Some res
    | Some ((c, u), pq') =>
      if rem u then let rem' := upd rem u false in prim_loop fuel n T rem' (push n T u rem' (fst s, pq')) (wrap32 (res + c))
      else prim_loop fuel n T rem (fst s, pq') res
    end
  end.
(** Initialisation (:131-138); [light0] = stale thread-local values of earlier calls; the remaining-nodes bitset is empty between calls (:155). *)
Definition compute_mst (n : nat) (T : nat -> Z) (light0 : nat -> Z) (S : bset) : option Z :=
  let root := last (elems n S) 0%nat in
  let rem := upd S root false in
  let light := fun v => if S v then INT_MAX else light0 v in
  prim_loop ((n + 1) * (n + 1)) n T rem (push n T root rem (light, [])) 0.

(** ** Pop *)
Lemma pop_spec l : match pop_min l with
  | None => l = []
  | Some (x, r) => Permutation l (x :: r) /\ forall y, In y l -> fst x <= fst y
  end.
Proof.
  induction l as [|x l IH]; cbn [pop_min]; [reflexivity|]. destruct (pop_min l) as [[y r]|].
  - destruct IH as [P M]. unfold pleb. destruct ((fst x <? fst y) || ((fst x =? fst y) && (snd x <=? snd y)%nat)) eqn:E.
    + split; [reflexivity|]. intros z [<-|Hz]; [lia|]. specialize (M z Hz). apply orb_true_iff in E. rewrite andb_true_iff in E. lia.
    + split; [rewrite P; apply perm_swap|]. intros z [<-|Hz]; [|apply M, Hz]. apply orb_false_iff in E. lia.
  - subst. split; [reflexivity|]. intros y [<-|[]]. lia.
Qed.

(** ** Push *)
Lemma push_fold n T u vs s : NoDup vs ->
  let s' := fold_left (push_one n T u) vs s in
  (forall v, In v vs -> fst s' v = Z.min (fst s v) (T (pidx n u v))) /\ (forall v, ~ In v vs -> fst s' v = fst s v) /\
  (forall v, In v vs -> In (fst s v, v) (snd s) \/ T (pidx n u v) < fst s v -> In (fst s' v, v) (snd s')) /\
  incl (snd s) (snd s') /\
  (forall c v, In (c, v) (snd s') -> In (c, v) (snd s) \/ (In v vs /\ c = fst s' v)) /\
  (length (snd s') <= length (snd s) + length vs)%nat.
Proof.
  revert s. induction vs as [|v vs IH]; intros s ND; cbn [fold_left]; cbv zeta.
  - split; [intros v []|]. split; [reflexivity|]. split; [intros v []|]. split; [apply incl_refl|]. split; [intros; left; assumption|cbn; lia].
  - inversion ND as [|? ? Nv ND']; subst. destruct (IH (push_one n T u s v) ND') as (A1 & A2 & A3 & A4 & A5 & A6). clear IH.
    set (s1 := push_one n T u s v) in *. set (s' := fold_left (push_one n T u) vs s1) in *. clearbody s'.
    assert (L1 : fst s1 v = Z.min (fst s v) (T (pidx n u v))).
    { unfold s1, push_one. destruct (Z.ltb_spec (T (pidx n u v)) (fst s v)); cbn [fst]; [rewrite upd_same; lia|lia]. }
    assert (L2 : forall x, x <> v -> fst s1 x = fst s x).
    { intros x Hx. unfold s1, push_one. destruct (T (pidx n u v) <? fst s v); cbn [fst]; [apply upd_other; exact Hx|reflexivity]. }
    assert (L3 : forall c x, In (c, x) (snd s1) <-> In (c, x) (snd s) \/ (T (pidx n u v) < fst s v /\ x = v /\ c = T (pidx n u v))).
    { intros c x. unfold s1, push_one. destruct (Z.ltb_spec (T (pidx n u v)) (fst s v)); cbn [snd In]; [|intuition lia].
      split; [intros [E|I]; [inversion E; subst; right; tauto|left; exact I]|intros [I|(_ & -> & ->)]; [right; exact I|left; reflexivity]]. }
    assert (L4 : (length (snd s1) <= S (length (snd s)))%nat) by (unfold s1, push_one; destruct (T (pidx n u v) <? fst s v); cbn [snd length]; lia).
    split; [|split; [|split; [|split; [|split]]]].
    + intros x [<-|Hx]; [rewrite A2 by exact Nv; exact L1|]. assert (x <> v) by congruence. rewrite A1, L2 by assumption. reflexivity.
    + intros x Hx. cbn [In] in Hx. rewrite A2, L2 by (intros; intuition congruence). reflexivity.
    + intros x [<-|Hx] HI.
      * apply A4. rewrite A2, L1 by exact Nv. apply L3. destruct (Z.ltb_spec (T (pidx n u v)) (fst s v)) as [Hlt|Hge].
        -- right. split; [exact Hlt|]. split; [reflexivity|lia].
        -- destruct HI as [HI|HI]; [|lia]. left. replace (Z.min (fst s v) (T (pidx n u v))) with (fst s v) by lia. exact HI.
      * apply A3; [exact Hx|]. assert (x <> v) by congruence. rewrite L2 by assumption. destruct HI as [HI|HI]; [left; apply L3; left; exact HI|right; exact HI].
    + intros [c x] HI. apply A4, L3. left; exact HI.
    + intros c x HI. apply A5 in HI. destruct HI as [HI|[HI ->]]; [|right; split; [right; exact HI|reflexivity]].
      apply L3 in HI. destruct HI as [HI|(Hlt & -> & ->)]; [left; exact HI|]. right. split; [left; reflexivity|]. rewrite A2, L1 by exact Nv. lia.
    + cbn [length]. lia.
Qed.

(** ** Prim's algorithm against any connected edge multiset (metric edges between blocks) *)
Inductive conn (K : list (nat * nat)) (X : list nat) : nat -> Prop :=
| conn_in x : In x X -> conn K X x
| conn_step x y : conn K X x -> In (x, y) K \/ In (y, x) K -> conn K X y.

Section Prim.
Variables (n : nat) (T : nat -> Z).
Notation d := (fun x y => T (pidx n x y)).
Hypothesis dsym : forall x y, (x < n)%nat -> (y < n)%nat -> T (pidx n x y) = T (pidx n y x).
Hypothesis dpos : forall x y, (x < n)%nat -> (y < n)%nat -> 0 <= T (pidx n x y) < INT_MAX.

Definition kcost (K : list (nat * nat)) : Z := sumZ (fun e => T (pidx n (fst e) (snd e))) K.

(** The edge by which the tree is left on the way from [r] to the tree: it can be dropped once [r] is in the tree. *)
Lemma last_crossing K X r : conn K X r -> ~ In r X ->
  exists p q, In q X /\ ~ In p X /\ (In (p, q) K \/ In (q, p) K) /\
    conn (filter (fun e => negb (mem (fst e) X) && negb (mem (snd e) X)) K) [r] p.
Proof.
  intros C. induction C as [x Hx|x y C IH E]; intros N; [contradiction|].
  destruct (in_dec Nat.eq_dec x X) as [Hx|Hx].
  - exists y, x. split; [exact Hx|]. split; [exact N|]. split; [tauto|]. constructor. left; reflexivity.
  - destruct (IH Hx) as (p & q & Hq & Hp & I & Cp). exists p, q. split; [exact Hq|]. split; [exact Hp|]. split; [exact I|].
    assert (Exy : forall K', (In (x, y) K' \/ In (y, x) K') -> conn K' [y] x) by (intros K' E'; eapply conn_step; [apply conn_in; left; reflexivity|tauto]).
    assert (Ef : In (x, y) (filter (fun e => negb (mem (fst e) X) && negb (mem (snd e) X)) K) \/ In (y, x) (filter (fun e => negb (mem (fst e) X) && negb (mem (snd e) X)) K)).
    { apply mem_false in Hx, N. destruct E as [E|E]; [left|right]; apply filter_In; (split; [exact E|]); cbn [fst snd]; rewrite Hx, N; reflexivity. }
    clear - Cp Ef Exy. specialize (Exy _ Ef). induction Cp as [z [<-|[]]|a b C IH E]; [exact Exy|]. eapply conn_step; [exact IH|exact E].
Qed.

Lemma exchange K X r : conn K X r -> ~ In r X ->
  exists K' p q, In q X /\ ~ In p X /\ (In (p, q) K \/ In (q, p) K) /\ (forall e, In e K' -> In e K) /\
    (kcost K' + T (pidx n p q) = kcost K \/ kcost K' + T (pidx n q p) = kcost K) /\ forall y, conn K X y -> conn K' (r :: X) y.
Proof.
  intros C N. destruct (last_crossing K X r C N) as (p & q & Hq & Hp & I & Cp).
  assert (HE : exists a b, In (a, b) K /\ ((a = p /\ b = q) \/ (a = q /\ b = p))) by (destruct I as [I|I]; [exists p, q|exists q, p]; tauto).
  destruct HE as (a & b & Iab & Hab). destruct (in_split _ _ Iab) as (K1 & K2 & EK).
  exists (K1 ++ K2), p, q. split; [exact Hq|]. split; [exact Hp|]. split; [exact I|]. split; [intros e He; subst K; apply in_app_iff in He; apply in_or_app; cbn [In]; tauto|]. split.
  - subst K. unfold kcost. rewrite !sumZ_app. cbn [sumZ fst snd]. destruct Hab as [[-> ->]|[-> ->]]; [left|right]; lia.
  - assert (In' : forall e, In e K -> e <> (a, b) -> In e (K1 ++ K2)) by (intros e He Ne; subst K; apply in_app_iff in He; apply in_or_app; cbn [In] in He; intuition congruence).
    assert (Cr : conn (K1 ++ K2) (r :: X) p).
    { assert (A : conn (K1 ++ K2) [r] p).
      { assert (HX : In a X \/ In b X) by (destruct Hab as [[-> ->]|[-> ->]]; tauto). clear - Cp In' HX. induction Cp as [z Hz|x y C IH E]; [constructor; exact Hz|]. eapply conn_step; [exact IH|].
        destruct E as [E|E]; [left|right]; apply filter_In in E; destruct E as [E M]; cbn [fst snd] in M; apply andb_true_iff in M; rewrite !negb_true_iff, !mem_false in M;
          (apply In'; [exact E|]); intros Q; inversion Q; subst; tauto. }
      clear - A. induction A as [z [<-|[]]|x y C IH E]; [constructor; left; reflexivity|econstructor; eassumption]. }
    intros y Cy. induction Cy as [x Hx|x y C' IH E]; [constructor; right; exact Hx|].
    assert (DE : forall e, e = (a, b) \/ e <> (a, b)) by (intros [e1 e2]; destruct (Nat.eq_dec e1 a), (Nat.eq_dec e2 b); subst; (left; reflexivity) || (right; congruence)).
    assert (Hpq : y = p \/ y = q -> conn (K1 ++ K2) (r :: X) y) by (intros [->| ->]; [exact Cr|constructor; right; exact Hq]).
    destruct E as [E|E].
    + destruct (DE (x, y)) as [Q|Q]; [|eapply conn_step; [exact IH|left; apply In'; assumption]]. inversion Q; subst. apply Hpq. tauto.
    + destruct (DE (y, x)) as [Q|Q]; [|eapply conn_step; [exact IH|right; apply In'; assumption]]. inversion Q; subst. apply Hpq. tauto.
Qed.

Definition pinv (X : list nat) (rem : bset) (s : (nat -> Z) * list (Z * nat)) : Prop :=
  (forall x, In x X -> (x < n)%nat) /\
  (forall v, rem v = true -> (v < n)%nat /\ ~ In v X) /\
  (forall v, rem v = true -> In (fst s v, v) (snd s) /\ (exists x, In x X /\ fst s v = T (pidx n x v)) /\ forall x, In x X -> fst s v <= T (pidx n x v)) /\
  (forall c v, In (c, v) (snd s) -> rem v = true -> fst s v <= c).

Lemma push_inv X rem s u pq' c :
  pinv X rem s -> rem u = true -> Permutation (snd s) ((c, u) :: pq') -> (forall y, In y (snd s) -> c <= fst y) ->
  pinv (u :: X) (upd rem u false) (push n T u (upd rem u false) (fst s, pq')) /\
  c = fst s u /\
  (length (snd (push n T u (upd rem u false) (fst s, pq'))) <= length pq' + length (elems n (upd rem u false)))%nat.
Proof.
  intros (I0 & I1 & I2 & I3) Ru P M.
  assert (ND : NoDup (elems n (upd rem u false))) by (apply strict_NoDup, elems_strict).
  assert (Hel : forall v, In v (elems n (upd rem u false)) <-> rem v = true /\ v <> u).
  { intros v. rewrite elems_In. unfold upd. destruct (Nat.eqb_spec v u) as [E|Ne]; [intuition congruence|]. split; [tauto|]. intros [R _]. split; [apply I1, R|exact R]. }
  destruct (push_fold n T u (elems n (upd rem u false)) (fst s, pq') ND) as (A1 & A2 & A3 & A4 & A5 & A6). cbn [fst snd] in *.
  unfold push. set (s' := fold_left (push_one n T u) (elems n (upd rem u false)) (fst s, pq')) in *. clearbody s'.
  split; [|split; [|exact A6]].
  - split; [|split; [|split]].
    + intros x [<-|Hx]; [apply I1, Ru|apply I0, Hx].
    + intros v Hv. unfold upd in Hv. destruct (Nat.eqb_spec v u) as [E|Ne]; [discriminate|]. destruct (I1 v Hv) as [B N]. split; [exact B|]. intros [E|E]; [congruence|contradiction].
    + intros v Hv. assert (Hv' : In v (elems n (upd rem u false))) by (apply elems_In; split; [|exact Hv]; unfold upd in Hv; destruct (v =? u)%nat; [discriminate|apply I1, Hv]).
      apply Hel in Hv' as Hv2. destruct Hv2 as [Rv Nv]. destruct (I2 v Rv) as (J1 & (x & Hx & J2) & J3). split; [|split].
      * apply A3; [exact Hv'|]. left. apply (Permutation_in _ P) in J1. destruct J1 as [E|J1]; [inversion E; congruence|exact J1].
      * rewrite A1 by exact Hv'. destruct (Z.min_spec (fst s v) (T (pidx n u v))) as [[_ ->]|[_ ->]]; [exists x; split; [right; exact Hx|exact J2]|exists u; split; [left; reflexivity|reflexivity]].
      * intros y [<-|Hy]; rewrite A1 by exact Hv'; [lia|]. specialize (J3 y Hy). lia.
    + intros c' v HI Rv. unfold upd in Rv. destruct (Nat.eqb_spec v u) as [E|Ne]; [discriminate|]. assert (Hv' : In v (elems n (upd rem u false))) by (apply Hel; tauto).
      apply A5 in HI. destruct HI as [HI|[_ ->]]; [|lia]. assert (In (c', v) (snd s)) by (apply (Permutation_in _ (Permutation_sym P)); right; exact HI).
      specialize (I3 c' v H Rv). rewrite A1 by exact Hv'. lia.
  - assert (HI : In (c, u) (snd s)) by (apply (Permutation_in _ (Permutation_sym P)); left; reflexivity).
    pose proof (I3 c u HI Ru). destruct (I2 u Ru) as (J1 & _). specialize (M _ J1). cbn [fst] in M. lia.
Qed.

Lemma elems_remove (rem : bset) u : rem u = true -> (u < n)%nat -> length (elems n rem) = S (length (elems n (upd rem u false))).
Proof.
  intros Ru Hu. assert (Pm : Permutation (elems n rem) (u :: elems n (upd rem u false))).
  { apply NoDup_Permutation; [apply strict_NoDup, elems_strict|constructor; [intros Hi; apply elems_In in Hi; rewrite upd_same in Hi; destruct Hi; discriminate|apply strict_NoDup, elems_strict]|].
    intros x. cbn [In]. rewrite !elems_In. unfold upd. destruct (Nat.eqb_spec x u) as [E|Ne]; [rewrite E; tauto|intuition congruence]. }
  apply Permutation_length in Pm. exact Pm.
Qed.

Lemma kcost_nonneg K : (forall e, In e K -> (fst e < n)%nat /\ (snd e < n)%nat) -> 0 <= kcost K.
Proof. intros B. apply sumZ_nonneg. intros e He. destruct (B e He). apply dpos; assumption. Qed.

Lemma prim_ok fuel : forall X rem s res K,
  pinv X rem s -> (length (snd s) + length (elems n rem) * length (elems n rem) < fuel)%nat ->
  (forall e, In e K -> (In (fst e) X \/ rem (fst e) = true) /\ (In (snd e) X \/ rem (snd e) = true)) ->
  (forall v, rem v = true -> conn K X v) -> 0 <= res -> res + kcost K <= INT_MAX ->
  exists r, prim_loop fuel n T rem s res = Some r /\ r <= res + kcost K /\
    (forall P : (nat -> Prop) -> Z -> Prop, P (fun x => In x X) res ->
       (forall Y x u w, P Y w -> Y x -> (x < n)%nat -> (u < n)%nat -> P (fun z => Y z \/ z = u) (w + T (pidx n x u))) ->
       exists Y, P Y r /\ forall z, In z X \/ rem z = true -> Y z).
Proof.
  induction fuel as [|fuel IH]; intros X rem s res K I F B C H0 Hmax; [lia|]. cbn [prim_loop].
  assert (BK : forall e, In e K -> (fst e < n)%nat /\ (snd e < n)%nat).
  { intros e He. destruct (B e He) as [[E1|E1] [E2|E2]]; destruct I as (I0 & I1 & _); split; try (apply I0; assumption); try (apply I1; assumption). }
  pose proof (kcost_nonneg K BK) as KN. pose proof (pop_spec (snd s)) as Pop. destruct (pop_min (snd s)) as [[[c u] pq']|].
  - destruct Pop as [P M]. cbn [fst] in M. pose proof (Permutation_length P) as PL. cbn [length] in PL.
    destruct (rem u) eqn:Ru.
    + destruct (push_inv X rem s u pq' c I Ru P M) as (I' & Ec & Lp). pose proof I as (I0 & I1 & I2 & I3). destruct (I1 u Ru) as [Hu Nu].
      pose proof (elems_remove rem u Ru Hu) as El.
      destruct (I2 u Ru) as (J1 & (x & Hx & J2) & J3).
      destruct (exchange K X u (C u Ru) Nu) as (K' & p & q & Hq & Hp & Ipq & Sub & Cost & CK').
      assert (Hrp : rem p = true) by (destruct Ipq as [E|E]; destruct (B _ E) as [E1 E2]; cbn [fst snd] in *; [destruct E1|destruct E2]; tauto).
      assert (Hpn : (p < n)%nat) by (apply I1, Hrp). assert (Hqn : (q < n)%nat) by (apply I0, Hq).
      assert (Hc : c <= T (pidx n q p)).
      { destruct (I2 p Hrp) as (Jp & _ & Jm). specialize (M _ Jp). cbn [fst] in M. specialize (Jm q Hq). lia. }
      assert (BK' : forall e, In e K' -> (fst e < n)%nat /\ (snd e < n)%nat) by (intros e He; apply BK, Sub, He). pose proof (kcost_nonneg K' BK') as KN'.
      assert (Hcost : kcost K' + c <= kcost K) by (rewrite (dsym p q Hpn Hqn) in Cost; destruct Cost; lia).
      assert (Hc0 : 0 <= c) by (rewrite Ec, J2; apply dpos; [apply I0, Hx|exact Hu]).
      rewrite wrap32_id by (unfold INT_MAX in *; lia).
      destruct (IH (u :: X) (upd rem u false) (push n T u (upd rem u false) (fst s, pq')) (res + c) K') as (r & Er & Hr & HP).
      * exact I'.
      * rewrite El in F. nia.
      * intros e He. apply Sub in He. specialize (B e He). unfold upd. cbn [In].
        destruct (Nat.eqb_spec (fst e) u), (Nat.eqb_spec (snd e) u); intuition congruence.
      * intros v Hv. apply CK'. apply C. unfold upd in Hv. destruct (v =? u)%nat; [discriminate|exact Hv].
      * lia.
      * lia.
      * exists r. split; [exact Er|]. split; [lia|]. intros Q Q0 Qs. specialize (HP Q) as HP'. clear HP.
        assert (Q1 : Q (fun z => In z X \/ z = u) (res + c)) by (rewrite Ec, J2; apply Qs; [exact Q0|exact Hx|apply I0, Hx|exact Hu]).
        assert (Hext : forall (P1 : (nat -> Prop) -> Z -> Prop) A B' w, P1 A w -> (forall z, A z <-> B' z) -> (exists Y, P1 Y w /\ forall z, B' z -> Y z)).
        { intros P1 A B' w HA E. exists A. split; [exact HA|]. intros z Hz. apply E, Hz. }
        clear Hext.
        (* transport the tree property along the extensionally equal node set *)
        destruct (IH (u :: X) (upd rem u false) (push n T u (upd rem u false) (fst s, pq')) (res + c) K' I') as (r2 & Er2 & _ & HP2); [rewrite El in F; nia| | |lia|lia|].
        { intros e He. apply Sub in He. specialize (B e He). unfold upd. cbn [In]. destruct (Nat.eqb_spec (fst e) u), (Nat.eqb_spec (snd e) u); intuition congruence. }
        { intros v Hv. apply CK'. apply C. unfold upd in Hv. destruct (v =? u)%nat; [discriminate|exact Hv]. }
        rewrite Er in Er2. inversion Er2; subst r2. clear Er2.
        destruct (HP2 (fun Y w => exists Y', Q Y' w /\ forall z, Y z -> Y' z)) as (Y & (Y' & QY & HY) & Cov).
        -- exists (fun z => In z X \/ z = u). split; [exact Q1|]. intros z [E|E]; [right; symmetry; exact E|left; exact E].
        -- intros Y y z w (Y' & QY & HY) Yy Hy Hz. exists (fun t => Y' t \/ t = z). split; [apply Qs; auto|]. intros t [Yt|Yt]; [left; apply HY, Yt|right; exact Yt].
        -- exists Y'. split; [exact QY|]. intros z Hz. apply HY, Cov. cbn [In]. unfold upd. destruct (Nat.eqb_spec z u) as [E|Ne]; [left; left; congruence|tauto].
    + destruct (IH X rem (fst s, pq') res K) as (r & Er & Hr & HP).
      * destruct I as (I0 & I1 & I2 & I3). split; [exact I0|]. split; [exact I1|]. cbn [fst snd]. split.
        -- intros v Hv. destruct (I2 v Hv) as (J1 & J2 & J3). split; [|split; assumption]. apply (Permutation_in _ P) in J1. destruct J1 as [E|J1]; [inversion E; congruence|exact J1].
        -- intros c' v HI. apply I3. apply (Permutation_in _ (Permutation_sym P)). right; exact HI.
      * cbn [snd]. lia.
      * exact B.
      * exact C.
      * exact H0.
      * exact Hmax.
      * exists r. split; [exact Er|]. split; [exact Hr|exact HP].
  - exists res. split; [reflexivity|]. split; [lia|]. intros Q Q0 _. exists (fun x => In x X). split; [exact Q0|]. intros z [Hz|Hz]; [exact Hz|].
    destruct I as (_ & _ & I2 & _). destruct (I2 z Hz) as (J & _). rewrite Pop in J. destruct J.
Qed.
End Prim.

(** ** Tours: doubling the edges of a tree visits all terminals *)
Section Tour.
Variables (n : nat) (G : list arc) (T : nat -> Z).
Hypothesis TG : target n G.
Hypothesis HP : Pairs n G T.
Notation d := (fun x y => T (pidx n x y)).

Lemma d_tri x y z : (x < n)%nat -> (y < n)%nat -> (z < n)%nat -> T (pidx n x z) <= T (pidx n x y) + T (pidx n y z).
Proof. intros Hx Hy Hz. destruct (HP x y Hx Hy) as [W1 _]. destruct (HP y z Hy Hz) as [W2 _]. destruct (HP x z Hx Hz) as [_ M]. apply M. eapply walk_app; eassumption. Qed.
Lemma d_pos x y : (x < n)%nat -> (y < n)%nat -> 0 <= T (pidx n x y).
Proof. intros Hx Hy. destruct (HP x y Hx Hy) as [W _]. eapply walk_nonneg; eassumption. Qed.
Lemma d_refl x : (x < n)%nat -> T (pidx n x x) = 0.
Proof. intros Hx. pose proof (d_pos x x Hx Hx). destruct (HP x x Hx Hx) as [_ M]. specialize (M 0 (walk_nil G x)). lia. Qed.
Lemma d_sym x y : (x < n)%nat -> (y < n)%nat -> T (pidx n x y) = T (pidx n y x).
Proof.
  intros Hx Hy. destruct (HP x y Hx Hy) as [W1 M1]. destruct (HP y x Hy Hx) as [W2 M2].
  pose proof (M1 _ (walk_rev n G y x _ TG W2)). pose proof (M2 _ (walk_rev n G x y _ TG W1)). lia.
Qed.
Lemma d_arc x y a : In (x, y, a) G -> T (pidx n x y) <= a.
Proof.
  intros I. destruct (tg_src _ _ TG _ _ _ I) as [Hx Hy]. destruct (HP x y Hx Hy) as [_ M]. apply M. rewrite <- (Z.add_0_r a). econstructor; [exact I|constructor].
Qed.

Fixpoint pc (a : nat) (l : list nat) (z : nat) : Z := match l with [] => T (pidx n a z) | x :: r => T (pidx n a x) + pc x r z end.

Lemma pc_tail a l z z' : (a < n)%nat -> (forall x, In x l -> (x < n)%nat) -> (z < n)%nat -> (z' < n)%nat -> pc a l z <= pc a l z' + T (pidx n z' z).
Proof.
  revert a. induction l as [|x l IH]; intros a Ha Hl Hz Hz'; cbn [pc]; [apply d_tri; assumption|].
  specialize (IH x (Hl x (or_introl eq_refl)) (fun y Hy => Hl y (or_intror Hy)) Hz Hz'). lia.
Qed.
Lemma pc_head a a' l z : (a < n)%nat -> (a' < n)%nat -> (forall x, In x l -> (x < n)%nat) -> (z < n)%nat -> pc a l z <= T (pidx n a a') + pc a' l z.
Proof.
  intros Ha Ha' Hl Hz. destruct l as [|x l]; cbn [pc]; [apply d_tri; assumption|]. pose proof (d_tri a a' x Ha Ha' (Hl x (or_introl eq_refl))). lia.
Qed.
Lemma pc_app a l1 l2 v z : (a < n)%nat -> (v < n)%nat -> (z < n)%nat -> (forall x, In x l1 -> (x < n)%nat) -> (forall x, In x l2 -> (x < n)%nat) ->
  pc a (l1 ++ l2) z <= pc a l1 v + pc v l2 z.
Proof.
  intros Ha Hv Hz H1 H2. revert a Ha. induction l1 as [|x l1 IH]; intros a Ha; cbn [app pc]; [apply pc_head; assumption|].
  specialize (IH (fun y Hy => H1 y (or_intror Hy)) x (H1 x (or_introl eq_refl))). lia.
Qed.

Lemma stree_range v D w x : stree G v D w -> (v < n)%nat -> In x D -> (x < n)%nat.
Proof.
  intros ST. revert x. induction ST as [v|v u a D w I ST IH|v D1 D2 w1 w2 T1 IH1 T2 IH2]; intros x Hv Hx.
  - destruct Hx as [<-|[]]. exact Hv.
  - destruct Hx as [<-|Hx]; [exact Hv|]. apply IH; [apply (tg_src _ _ TG) in I; tauto|exact Hx].
  - apply in_app_iff in Hx. destruct Hx; auto.
Qed.

Lemma tour (p : nat -> bool) v D w : stree G v D w -> (v < n)%nat ->
  exists l, (forall x, In x D -> p x = true -> In x l) /\ (forall x, In x l -> p x = true /\ In x D) /\ pc v l v <= 2 * w.
Proof.
  intros ST. induction ST as [v|v u a D w I ST IH|v D1 D2 w1 w2 T1 IH1 T2 IH2]; intros Hv.
  - exists (filter p [v]). split; [intros x Hx Px; apply filter_In; tauto|]. split; [intros x Hx; apply filter_In in Hx; tauto|].
    cbn [filter]. destruct (p v); cbn [pc]; rewrite !d_refl by exact Hv; lia.
  - destruct (tg_src _ _ TG _ _ _ I) as [_ Hu]. destruct (IH Hu) as (l & A & B & C).
    assert (Hl : forall x, In x l -> (x < n)%nat) by (intros x Hx; eapply stree_range; [exact ST|exact Hu|apply B, Hx]).
    assert (E : pc v l v <= 2 * (a + w)).
    { pose proof (pc_head v u l v Hv Hu Hl Hv). pose proof (pc_tail u l v u Hu Hl Hv Hu). pose proof (d_arc v u a I). rewrite (d_sym u v Hu Hv) in *. lia. }
    exists (if p v then v :: l else l). destruct (p v) eqn:Pv.
    + split; [intros x [<-|Hx] Px; [left; reflexivity|right; apply A; assumption]|]. split; [intros x [<-|Hx]; [split; [exact Pv|left; reflexivity]|destruct (B x Hx); split; [assumption|right; assumption]]|].
      cbn [pc]. rewrite d_refl by exact Hv. lia.
    + split; [intros x [<-|Hx] Px; [congruence|apply A; assumption]|]. split; [intros x Hx; destruct (B x Hx); split; [assumption|right; assumption]|exact E].
  - destruct (IH1 Hv) as (l1 & A1 & B1 & C1). destruct (IH2 Hv) as (l2 & A2 & B2 & C2). exists (l1 ++ l2).
    split; [intros x Hx Px; apply in_app_iff in Hx; apply in_or_app; destruct Hx; [left; apply A1; assumption|right; apply A2; assumption]|].
    split; [intros x Hx; apply in_app_iff in Hx; destruct Hx as [Hx|Hx]; [destruct (B1 x Hx)|destruct (B2 x Hx)]; (split; [assumption|apply in_or_app; tauto])|].
    pose proof (pc_app v l1 l2 v v Hv Hv Hv (fun x Hx => stree_range v D1 w1 x T1 Hv (proj2 (B1 x Hx))) (fun x Hx => stree_range v D2 w2 x T2 Hv (proj2 (B2 x Hx)))). lia.
Qed.

Fixpoint pairs (l : list nat) : list (nat * nat) := match l with a :: (b :: _) as r => (a, b) :: pairs r | _ => [] end.
Lemma pairs_In l e : In e (pairs l) -> In (fst e) l /\ In (snd e) l.
Proof.
  induction l as [|a l IH]; [intros []|]. destruct l as [|b l]; [intros []|]. intros [<-|I]; [cbn; tauto|]. destruct (IH I). split; right; assumption.
Qed.
Lemma pairs_cost a l z : (a < n)%nat -> (forall x, In x l -> (x < n)%nat) -> (z < n)%nat -> kcost n T (pairs l) <= pc a l z.
Proof.
  revert a. induction l as [|x l IH]; intros a Ha Hl Hz; [cbn; apply d_pos; assumption|].
  assert (Hx : (x < n)%nat) by (apply Hl; left; reflexivity). pose proof (d_pos a x Ha Hx). cbn [pc].
  destruct l as [|y l]; [cbn [pairs kcost sumZ pc]; unfold kcost; cbn [sumZ]; pose proof (d_pos x z Hx Hz); lia|].
  assert (Hy : (y < n)%nat) by (apply Hl; right; left; reflexivity).
  change (pairs (x :: y :: l)) with ((x, y) :: pairs (y :: l)). unfold kcost in *. cbn [sumZ fst snd].
  specialize (IH y Hy (fun t Ht => Hl t (or_intror Ht)) Hz). cbn [pc] in IH. rewrite d_refl in IH by exact Hy. cbn [pc]. lia.
Qed.
Lemma pairs_conn K X l : incl (pairs l) K -> (exists x, In x l /\ conn K X x) -> forall y, In y l -> conn K X y.
Proof.
  induction l as [|a l IH]; intros HI (x & Hx & Cx) y Hy; [destruct Hy|]. destruct l as [|b l].
  - destruct Hx as [<-|[]]. destruct Hy as [<-|[]]. exact Cx.
  - assert (E : In (a, b) K) by (apply HI; left; reflexivity). assert (HI' : incl (pairs (b :: l)) K) by (intros e He; apply HI; right; exact He).
    assert (All : forall z, In z (b :: l) -> conn K X z).
    { apply IH; [exact HI'|]. destruct Hx as [<-|Hx]; [exists b; split; [left; reflexivity|eapply conn_step; [exact Cx|left; exact E]]|exists x; tauto]. }
    destruct Hy as [<-|Hy]; [eapply conn_step; [apply All; left; reflexivity|right; exact E]|apply All, Hy].
Qed.
End Tour.

(** ** C51: the weight computed for larger block sets is at least the optimum and at most twice the optimum *)
Lemma last_In (l : list nat) dflt : l <> [] -> In (last l dflt) l.
Proof. induction l as [|a l IH]; intros N; [congruence|]. destruct l as [|b l]; [left; reflexivity|]. right. apply IH. discriminate. Qed.

Theorem C51_mst_two_approximation n G T light0 (S : bset) :
  target n G -> (forall u v, (u < n)%nat -> (v < n)%nat -> is_dist G u v (tg_distance T n u v)) ->
  (exists L, incl L G /\ connects L (fun x => (x < n)%nat) /\ weight L < kInv) ->
  within n S -> (exists x, S x = true) ->
  exists r, compute_mst n T light0 S = Some r /\
    (exists L, incl L G /\ connects L (members S) /\ weight L <= r) /\
    (forall L, incl L G -> connects L (members S) -> r <= 2 * weight L).
Proof.
  intros TG HP (L0 & I0 & C0 & W0) W [x0 Hx0].
  set (root := last (elems n S) 0%nat).
  assert (Hroot : In root (elems n S)) by (apply last_In; intros E; assert (In x0 (elems n S)) by (apply elems_In; split; [apply W, Hx0|exact Hx0]); rewrite E in H; destruct H).
  apply elems_In in Hroot as Hr. destruct Hr as [Rn Rs].
  assert (HP' : Pairs n G T) by exact HP.
  assert (Dp : forall x y, (x < n)%nat -> (y < n)%nat -> 0 <= T (pidx n x y) < INT_MAX).
  { intros x y Hx Hy. split; [eapply d_pos; eassumption|]. destruct (HP x y Hx Hy) as [_ M]. destruct (joined_walk n G TG L0 x y I0 (C0 x y Hx Hy)) as (b & Wk & Hb).
    specialize (M b Wk). unfold tg_distance in M. rewrite kInv_val in W0. unfold INT_MAX. lia. }
  assert (Ds : forall x y, (x < n)%nat -> (y < n)%nat -> T (pidx n x y) = T (pidx n y x)) by (intros; eapply d_sym; eassumption).
  set (rem := upd S root false). set (light := fun v => if S v then INT_MAX else light0 v).
  assert (Hrem : forall v, rem v = true <-> S v = true /\ v <> root) by (intros v; unfold rem, upd; destruct (Nat.eqb_spec v root); intuition congruence).
  assert (Hel : forall v, In v (elems n rem) <-> rem v = true) by (intros v; rewrite elems_In, Hrem; specialize (W v); tauto).
  destruct (push_fold n T root (elems n rem) (light, []) (strict_NoDup _ (elems_strict n rem))) as (A1 & A2 & A3 & A4 & A5 & A6). cbn [fst snd] in *.
  set (s := fold_left (push_one n T root) (elems n rem) (light, [])) in *.
  assert (Hlight : forall v, rem v = true -> light v = INT_MAX) by (intros v Hv; apply Hrem in Hv; unfold light; destruct Hv as [-> _]; reflexivity).
  assert (Inv : pinv n T [root] rem s).
  { split; [intros x [<-|[]]; exact Rn|]. split; [intros v Hv; apply Hrem in Hv; split; [apply W; tauto|intros [E|[]]; intuition congruence]|]. split.
    - intros v Hv. assert (Hv' : In v (elems n rem)) by (apply Hel; exact Hv). assert (Hvn : (v < n)%nat) by (apply elems_In in Hv'; tauto).
      pose proof (Dp root v Rn Hvn). specialize (A1 v Hv'). rewrite (Hlight v Hv) in A1. split; [apply A3; [exact Hv'|right; rewrite (Hlight v Hv); lia]|].
      split; [exists root; split; [left; reflexivity|lia]|]. intros x [<-|[]]. lia.
    - intros c v HI Hv. apply A5 in HI. destruct HI as [[]|[_ ->]]. lia. }
  assert (Key : forall L, incl L G -> connects L (members S) ->
     exists K, (forall e, In e K -> (In (fst e) [root] \/ rem (fst e) = true) /\ (In (snd e) [root] \/ rem (snd e) = true)) /\
               (forall v, rem v = true -> conn K [root] v) /\ 0 <= kcost n T K <= 2 * weight L).
  { intros L I C. destruct (grow n G L root TG I) as (D & w & ST & Hw & Cov).
    destruct (tour n G T TG HP' S root D w ST Rn) as (l & B1 & B2 & B3).
    assert (Hl : forall x, In x l -> (x < n)%nat) by (intros x Hx; apply W, (proj1 (B2 x Hx))).
    exists (pairs l). split; [|split].
    - intros e He. apply pairs_In in He. destruct He as [H1 H2]. apply B2 in H1, H2. rewrite !Hrem. cbn [In].
      destruct (Nat.eq_dec (fst e) root), (Nat.eq_dec (snd e) root); intuition congruence.
    - intros v Hv. apply Hrem in Hv.
      assert (HD : forall x, S x = true -> In x l) by (intros x Sx; apply B1; [apply Cov, C; [exact Rs|exact Sx]|exact Sx]).
      apply (pairs_conn (pairs l) [root] l (incl_refl _)); [exists root; split; [apply HD, Rs|constructor; left; reflexivity]|apply HD; tauto].
    - split; [apply (kcost_nonneg n T Dp); intros e He; apply pairs_In in He; destruct He; split; apply Hl; assumption|].
      pose proof (pairs_cost n G T TG HP' root l root Rn Hl Rn). lia. }
  assert (Fuel : (length (snd s) + length (elems n rem) * length (elems n rem) < (n + 1) * (n + 1))%nat).
  { assert (length (elems n rem) <= n)%nat by (unfold elems; etransitivity; [apply filter_len_le|rewrite seq_length; lia]). cbn [length] in A6. nia. }
  assert (C0S : connects L0 (members S)) by (intros x y Hx Hy; apply C0; apply W; assumption).
  destruct (Key L0 I0 C0S) as (K0 & B0 & Cn0 & Cost0).
  destruct (prim_ok n T Ds Dp ((n + 1) * (n + 1)) [root] rem s 0 K0 Inv Fuel B0 Cn0 ltac:(lia) ltac:(rewrite kInv_val in W0; unfold INT_MAX; lia)) as (r & Er & Hr & HPr).
  exists r. split; [exact Er|]. split.
  - destruct (HPr (fun Y w => exists L, incl L G /\ (forall x, Y x -> joined L root x) /\ weight L <= w)) as (Y & (L & I & J & Hw) & Cov).
    + exists []. split; [intros e []|]. split; [intros x [<-|[]]; constructor|unfold weight; cbn; lia].
    + intros Y x u w (L & I & J & Hw) Yx Hx Hu. destruct (HP x u Hx Hu) as [Wk _]. destruct (walk_edges G x u _ Wk) as (L2 & I2 & J2 & Hw2). unfold tg_distance in Hw2.
      exists (L ++ L2). split; [intros e He; apply in_app_iff in He; destruct He; auto|]. split; [|rewrite weight_app; lia].
      assert (J' : forall z, Y z -> joined (L ++ L2) root z) by (intros z Yz; apply (joined_incl L); [intros e He; apply in_app_iff; left; exact He|apply J, Yz]).
      intros z [Yz| ->]; [apply J', Yz|]. eapply joined_trans; [apply J', Yx|]. apply (joined_incl L2); [intros e He; apply in_app_iff; right; exact He|exact J2].
    + exists L. split; [exact I|]. split; [|exact Hw]. apply (connects_hub _ _ root). intros x Hx. apply J, Cov. cbn [In]. rewrite Hrem. destruct (Nat.eq_dec x root); [left; left; congruence|right; split; assumption].
  - intros L I C. destruct (Z.le_gt_cases (2 * weight L) (2 * kInv)) as [Hsm|Hbig].
    + destruct (Key L I C) as (K & B & Cn & Cost).
      destruct (prim_ok n T Ds Dp ((n + 1) * (n + 1)) [root] rem s 0 K Inv Fuel B Cn ltac:(lia) ltac:(rewrite kInv_val in *; unfold INT_MAX; lia)) as (r' & Er' & Hr' & _).
      rewrite Er in Er'. inversion Er'; subst r'. lia.
    + lia.
Qed.

(** The statement in terms of the optimum. *)
Corollary C51_mst_between_opt_and_twice_opt n G T light0 (S : bset) opt :
  target n G -> (forall u v, (u < n)%nat -> (v < n)%nat -> is_dist G u v (tg_distance T n u v)) ->
  (exists L, incl L G /\ connects L (fun x => (x < n)%nat) /\ weight L < kInv) ->
  within n S -> (exists x, S x = true) -> is_steiner G (members S) opt ->
  exists r, compute_mst n T light0 S = Some r /\ opt <= r <= 2 * opt.
Proof.
  intros TG HP HL W NS [(Lo & Io & Co & Wo) Min]. destruct (C51_mst_two_approximation n G T light0 S TG HP HL W NS) as (r & E & (L & I & C & Hw) & U).
  exists r. split; [exact E|]. specialize (Min L I C). specialize (U Lo Io Co). lia.
Qed.

Example ex_C51 : option_map (fun T => compute_mst 4 T (fun _ => 77) (fun x => (1 <=? x) && (x <=? 3))%nat) (steiner_compute 4 2 starG) = Some (Some 4).
Proof. vm_compute. reflexivity. Qed.

(** ** The cache *)
(** computeHash (target_graph.h:232-239): the shift by [block] is only defined for block < 64 (an ASSERT that is compiled out in release builds). *)
Definition compute_hash (n : nat) (S : bset) : Z :=
  fold_left (fun h b => Z.lor h (Z.shiftl 1 (Z.of_nat b mod 64))) (elems n S) 0.

Lemma hash_bits l h b : (forall x, In x l -> (x < 64)%nat) -> 0 <= h -> (b < 64)%nat ->
  Z.testbit (fold_left (fun h b => Z.lor h (Z.shiftl 1 (Z.of_nat b mod 64))) l h) (Z.of_nat b) = Z.testbit h (Z.of_nat b) || mem b l.
Proof.
  revert h. induction l as [|x l IH]; intros h Hl Hh Hb; cbn [fold_left mem existsb]; [rewrite orb_false_r; reflexivity|].
  assert (Hx : (x < 64)%nat) by (apply Hl; left; reflexivity).
  rewrite IH; [|intros y Hy; apply Hl; right; exact Hy|apply Z.lor_nonneg; split; [exact Hh|apply Z.shiftl_nonneg; lia]|exact Hb].
  rewrite Z.lor_spec, Z.mod_small by lia. fold (mem b l). rewrite <- orb_assoc. f_equal. f_equal.
  rewrite Z.shiftl_1_l, Z.pow2_bits_eqb by lia. destruct (Nat.eqb_spec b x); [subst; apply Z.eqb_refl|apply Z.eqb_neq; lia].
Qed.

Lemma hash_inj n S S' : (n <= 64)%nat -> within n S -> within n S' -> compute_hash n S = compute_hash n S' -> forall x, S x = S' x.
Proof.
  intros Hn W W' E x. destruct (lt_dec x n) as [Hx|Hx].
  - assert (A : forall Q, mem x (elems n Q) = Q x) by (intros Q; destruct (mem_spec x (elems n Q)) as [I|I]; rewrite elems_In in I; [symmetry; tauto|destruct (Q x); [tauto|reflexivity]]).
    rewrite <- (A S), <- (A S'). unfold compute_hash in E.
    pose proof (hash_bits (elems n S) 0 x ltac:(intros y Hy; apply elems_In in Hy; lia) ltac:(lia) ltac:(lia)) as B1.
    pose proof (hash_bits (elems n S') 0 x ltac:(intros y Hy; apply elems_In in Hy; lia) ltac:(lia) ltac:(lia)) as B2.
    rewrite E in B1. rewrite B1 in B2. rewrite Z.bits_0 in B2. exact B2.
  - destruct (S x) eqn:E1; [apply W in E1; lia|]. destruct (S' x) eqn:E2; [apply W' in E2; lia|]. reflexivity.
Qed.

(** The result does not depend on the stale thread-local values. *)
Lemma push_agree n T u vs s1 s2 :
  (forall v, In v vs -> fst s1 v = fst s2 v) -> snd s1 = snd s2 -> NoDup vs ->
  snd (fold_left (push_one n T u) vs s1) = snd (fold_left (push_one n T u) vs s2) /\
  (forall x, fst s1 x = fst s2 x -> fst (fold_left (push_one n T u) vs s1) x = fst (fold_left (push_one n T u) vs s2) x).
Proof.
  revert s1 s2. induction vs as [|v vs IH]; intros s1 s2 A E ND; cbn [fold_left]; [split; [exact E|auto]|]. inversion ND as [|? ? Nv ND']; subst.
  assert (Q : fst s1 v = fst s2 v) by (apply A; left; reflexivity).
  destruct (IH (push_one n T u s1 v) (push_one n T u s2 v)) as [I1 I2].
  - intros x Hx. assert (x <> v) by congruence. unfold push_one. rewrite Q. destruct (T (pidx n u v) <? fst s2 v); cbn [fst]; [rewrite !upd_other by assumption|]; apply A; right; exact Hx.
  - unfold push_one. rewrite Q. destruct (T (pidx n u v) <? fst s2 v); cbn [snd]; congruence.
  - exact ND'.
  - split; [exact I1|]. intros x Hx. apply I2. unfold push_one. rewrite Q. destruct (T (pidx n u v) <? fst s2 v); cbn [fst]; [|exact Hx]. unfold upd. destruct (x =? v)%nat; [reflexivity|exact Hx].
Qed.

Lemma prim_agree fuel n T : forall rem s1 s2 res, within n rem -> (forall v, rem v = true -> fst s1 v = fst s2 v) -> snd s1 = snd s2 ->
  prim_loop fuel n T rem s1 res = prim_loop fuel n T rem s2 res.
Proof.
  induction fuel as [|fuel IH]; intros rem s1 s2 res W A E; [reflexivity|]. cbn [prim_loop]. rewrite E. destruct (pop_min (snd s2)) as [[[c u] pq']|]; [|reflexivity].
  destruct (rem u) eqn:Ru; [|apply IH; [exact W|exact A|reflexivity]].
  assert (W' : within n (upd rem u false)) by (intros x Hx; unfold upd in Hx; destruct (x =? u)%nat; [discriminate|apply W, Hx]).
  assert (A' : forall v, upd rem u false v = true -> fst s1 v = fst s2 v) by (intros v Hv; unfold upd in Hv; destruct (v =? u)%nat; [discriminate|apply A, Hv]).
  destruct (push_agree n T u (elems n (upd rem u false)) (fst s1, pq') (fst s2, pq')) as [B1 B2];
    [intros v Hv; apply elems_In in Hv; apply A'; tauto|reflexivity|apply strict_NoDup, elems_strict|].
  apply IH; [exact W'| |exact B1]. intros v Hv. apply B2. apply A', Hv.
Qed.

Lemma mst_stale n T l0 l1 S : within n S -> compute_mst n T l0 S = compute_mst n T l1 S.
Proof.
  intros W. unfold compute_mst. set (root := last (elems n S) 0%nat).
  assert (W' : within n (upd S root false)) by (intros x Hx; unfold upd in Hx; destruct (x =? root)%nat; [discriminate|apply W, Hx]).
  assert (A : forall v, upd S root false v = true -> S v = true) by (intros v Hv; unfold upd in Hv; destruct (v =? root)%nat; [discriminate|exact Hv]).
  destruct (push_agree n T root (elems n (upd S root false)) ((fun v => if S v then INT_MAX else l0 v), []) ((fun v => if S v then INT_MAX else l1 v), [])) as [B1 B2];
    [intros v Hv; apply elems_In in Hv; cbn [fst]; rewrite (A v (proj2 Hv)); reflexivity|reflexivity|apply strict_NoDup, elems_strict|].
  apply prim_agree; [exact W'| |exact B1]. intros v Hv. apply B2. cbn [fst]. rewrite (A v Hv). reflexivity.
Qed.

Lemma mst_ext n T l0 S S' : (forall x, S x = S' x) -> within n S -> compute_mst n T l0 S = compute_mst n T l0 S'.
Proof.
  intros E W. unfold compute_mst. rewrite (elems_ext n S S') by (intros; apply E). set (root := last (elems n S') 0%nat).
  assert (Er : forall x, upd S root false x = upd S' root false x) by (intros x; unfold upd; rewrite E; reflexivity).
  unfold push. rewrite (elems_ext n (upd S root false) (upd S' root false)) by (intros; apply Er).
  assert (PE : forall f rem rem' s r, (forall x, rem x = rem' x) -> prim_loop f n T rem s r = prim_loop f n T rem' s r).
  { induction f as [|f IH]; intros rem rem' s r Q; [reflexivity|]. cbn [prim_loop]. destruct (pop_min (snd s)) as [[[c u] pq']|]; [|reflexivity]. rewrite Q. destruct (rem' u); [|apply IH, Q].
    assert (Q' : forall x, upd rem u false x = upd rem' u false x) by (intros x; unfold upd; rewrite Q; reflexivity).
    unfold push. rewrite (elems_ext n (upd rem u false) (upd rem' u false)) by (intros; apply Q'). apply IH, Q'. }
  rewrite (PE _ _ (upd S' root false) _ _ Er). apply prim_agree.
  - intros x Hx. rewrite <- Er in Hx. unfold upd in Hx. destruct (x =? root)%nat; [discriminate|apply W, Hx].
  - intros v Hv. assert (Sv : S' v = true) by (unfold upd in Hv; destruct (v =? root)%nat; [discriminate|exact Hv]).
    match goal with |- fst (fold_left _ _ ?a) v = fst (fold_left _ _ ?b) v => destruct (push_agree n T root (elems n (upd S' root false)) a b) as [B1 B2] end;
      [intros x Hx; cbn [fst]; rewrite E; reflexivity|reflexivity|apply strict_NoDup, elems_strict|]. apply B2. cbn [fst]. rewrite E. reflexivity.
  - apply push_agree; [intros x Hx; cbn [fst]; rewrite E; reflexivity|reflexivity|apply strict_NoDup, elems_strict].
Qed.

(** TargetGraph::distance(set) for sets larger than the precomputed size: look the hash up in the shared table; on a miss compute and insert.
    Threads interleave arbitrarily: [cache] evolves by insertions (an insert of a present key is a no-op) of values some thread computed for some set. *)
Inductive cache_reach (n : nat) (T : nat -> Z) : list (Z * Z) -> Prop :=
| cr_empty : cache_reach n T []
| cr_insert c S light0 r : cache_reach n T c -> within n S -> (exists x, S x = true) -> compute_mst n T light0 S = Some r ->
    (~ exists w, In (compute_hash n S, w) c) -> cache_reach n T ((compute_hash n S, r) :: c).
(** One answer: a hit returns the stored value, a miss the computed one. *)
Inductive answer (n max : nat) (T : nat -> Z) (c : list (Z * Z)) (S : bset) : Z -> Prop :=
| an_table : (length (elems n S) <= max)%nat -> answer n max T c S (T (set_index n S))
| an_hit w : (max < length (elems n S))%nat -> In (compute_hash n S, w) c -> answer n max T c S w
| an_miss light0 r : (max < length (elems n S))%nat -> (~ exists w, In (compute_hash n S, w) c) -> compute_mst n T light0 S = Some r -> answer n max T c S r.

(** C52: answers do not depend on the history of queries (any thread, any earlier contents of the cache), for up to 64 blocks. *)
Theorem C52_answers_history_independent n max T c1 c2 S a1 a2 :
  (n <= 64)%nat -> cache_reach n T c1 -> cache_reach n T c2 -> within n S -> (exists x, S x = true) ->
  answer n max T c1 S a1 -> answer n max T c2 S a2 -> a1 = a2.
Proof.
  intros Hn R1 R2 W NS A1 A2.
  assert (Hit : forall c w, cache_reach n T c -> In (compute_hash n S, w) c -> compute_mst n T (fun _ => 0) S = Some w).
  { intros c w R. induction R as [|c S' l0 r R IH W' NS' E N]; [intros []|]. intros [Q|I]; [|apply IH, I]. inversion Q as [[Q1 Q2]]. subst r.
    pose proof (hash_inj n S' S Hn W' W Q1) as Ext. rewrite <- (mst_ext n T (fun _ => 0) S' S Ext W'). rewrite (mst_stale n T (fun _ => 0) l0 S' W'). exact E. }
  assert (Val : forall c a, cache_reach n T c -> (max < length (elems n S))%nat -> answer n max T c S a -> compute_mst n T (fun _ => 0) S = Some a).
  { intros c a R Hm A. destruct A as [H|w H I|l0 r H N E]; [lia|apply (Hit c w R I)|rewrite (mst_stale n T _ l0 S W); exact E]. }
  destruct (le_lt_dec (length (elems n S)) max) as [Hle|Hgt].
  - destruct A1, A2; lia.
  - pose proof (Val c1 a1 R1 Hgt A1). pose proof (Val c2 a2 R2 Hgt A2). congruence.
Qed.

(** C52 with the guarantees of C50 and C51: every answer is exact up to [max] blocks and within a factor of two above. *)
Theorem C52_distance_within_factor_two n G max c S a :
  (2 <= n)%nat -> (n <= 64)%nat -> target n G -> (forall u v w, In (u, v, w) G -> w <= kInv) ->
  (exists L, incl L G /\ connects L (fun x => (x < n)%nat) /\ weight L < kInv) ->
  (2 <= max)%nat -> (max <= n + 1)%nat -> within n S -> (exists x, S x = true) ->
  exists T, steiner_compute n max G = Some T /\
   (cache_reach n T c -> answer n max T c S a -> forall opt, is_steiner G (members S) opt ->
     ((length (filter S (seq 0 n)) <= max)%nat -> a = opt) /\ opt <= a <= 2 * opt).
Proof.
  intros Hn H64 TG Hw HL Hm Hmax W NS. destruct (C50_precomputed_steiner_trees n G max Hn TG Hw HL Hm ltac:(lia)) as (T & E & D & St). exists T. split; [exact E|].
  intros R A opt Ho. fold (elems n S) in *.
  assert (N0 : 0 <= opt) by (destruct Ho as [(Lo & Io & _ & <-) _]; eapply weight_nonneg; eassumption).
  assert (Small : (length (elems n S) <= max)%nat -> a = opt).
  { intros Hle. destruct A as [H|w H I|l0 r H N' E']; try lia. destruct (St S W NS Hle) as [_ [(L1 & I1 & C1 & W1) M1]]. destruct Ho as [(L2 & I2 & C2 & W2) M2].
    specialize (M1 L2 I2 C2). specialize (M2 L1 I1 C1). lia. }
  split; [exact Small|]. destruct (le_lt_dec (length (elems n S)) max) as [Hle|Hgt]; [rewrite (Small Hle); lia|].
  destruct (C51_mst_between_opt_and_twice_opt n G T (fun _ => 0) S opt TG D HL W NS Ho) as (r & Er & Hr).
  assert (Am : answer n max T [] S r).
  { eapply an_miss; [exact Hgt| |exact Er]. intros [w []]. }
  rewrite (C52_answers_history_independent n max T c [] S a r H64 R (cr_empty n T) W NS A Am). exact Hr.
Qed.

(** Finding: with more than 64 blocks the shift wraps (undefined behaviour in C++, a shift count modulo 64 on x86): different block sets
    get the same key, so an answer can be the cached weight of another set. *)
Theorem C52_refuted_more_than_64_blocks :
  exists S S' : bset, within 66 S /\ within 66 S' /\ S 64%nat <> S' 64%nat /\ compute_hash 66 S = compute_hash 66 S'.
Proof.
  exists (fun x => (x =? 1) || (x =? 64))%nat, (fun x => (x =? 0) || (x =? 1))%nat. split; [|split; [|split]].
  - intros x Hx. apply orb_true_iff in Hx. rewrite !Nat.eqb_eq in Hx. lia.
  - intros x Hx. apply orb_true_iff in Hx. rewrite !Nat.eqb_eq in Hx. lia.
  - cbn. discriminate.
  - vm_compute. reflexivity.
Qed.
