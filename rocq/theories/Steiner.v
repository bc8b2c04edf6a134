(** Steiner.v - SetEnumerator, SubsetEnumerator (set_enumerator.h) and SteinerTree::compute (steiner_tree.cpp): the Dreyfus-Wagner
    dynamic program that fills the table of the target graph. *)
From Verif Require Import Base Sorting Weights TargetSpec TargetGraph TargetIndex SteinerTrees.

(** ** SetEnumerator (set_enumerator.h:38-160).
    _cur_set = sentinel c0 followed by the chosen elements in descending order; _bitset their characteristic vector. *)
(** nextSet, the loops of :98-117: unset the element, advance it if it stays below its predecessor [prev], otherwise try the next position;
    on the way back the skipped positions are set to successor values. *)
Fixpoint next_go (prev : nat) (cs : list nat) (bits : bset) : option (list nat) * bset :=
  match cs with
  | [] => (None, bits)
  | c :: l =>
    let bits1 := upd bits c false in
    if (S c <? prev)%nat then (Some (S c :: l), upd bits1 (S c) true)
    else match next_go c l bits1 with
         | (Some l', b') => (Some (S (hd 0%nat l') :: l'), upd b' (S (hd 0%nat l')) true)
         | (None, b') => (None, b')
         end
  end.
Fixpoint list_eqb (l1 l2 : list nat) : bool :=
  match l1, l2 with
  | [], [] => true
  | a :: r, b :: s => (a =? b)%nat && list_eqb r s
  | _, _ => false
  end.
(** begin (:56-60) and end (:61-66) states. *)
Fixpoint first_set (m : nat) : list nat := match m with O => [] | S m => m :: first_set m end.
Definition end_set (n m : nat) : list nat := map (fun i => (n - i)%nat) (seq 1 m).
Definition first_bits (m : nat) : bset := fun x => (x <? m)%nat.
(** The range-for loop over the enumerator: the sets visited. *)
Fixpoint enum_loop (fuel n m c0 : nat) (cs : list nat) (bits : bset) : option (list bset) :=
  match fuel with
  | O => None
  | S fuel =>
    if (c0 =? S n)%nat && list_eqb cs (end_set n m) then Some []
    else match next_go c0 cs bits with
         | (Some cs', bits') => option_map (cons bits) (enum_loop fuel n m c0 cs' bits')
         | (None, bits') => option_map (cons bits) (enum_loop fuel n m (S c0) cs bits')
         end
  end.
Definition enumerate (n m : nat) : option (list bset) := enum_loop (n ^ m + 2) n m n (first_set m) (first_bits m).

(** ** SubsetEnumerator (set_enumerator.h:167-265): masks 1 .. 2^|d| - 2 over the elements of d. *)
Definition mask_set (d : list nat) (mask : nat) : bset :=
  fun b => existsb (fun i => (nth i d 0%nat =? b)%nat && Nat.testbit mask i) (seq 0 (length d)).
Definition proper_subsets (d : list nat) : list bset := map (mask_set d) (seq 1 (2 ^ length d - 2)).

(** ** SteinerTree::compute (steiner_tree.cpp:87-145) *)
Definition bxor (A B : bset) : bset := fun x => xorb (A x) (B x).
(** :114-127. *)
Definition min_dist (n : nat) (T : nat -> Z) (D : bset) (u : nat) : Z :=
  fold_left (fun md E => Z.min md (wrap32 (T (set_index n (upd E u true)) + T (set_index n (upd (bxor D E) u true)))))
            (proper_subsets (elems n D)) (2 ^ 31 - 1).
(** :128-141. *)
Definition dw_write (n : nat) (D : bset) (u : nat) (md : Z) (T : nat -> Z) (v : nat) : nat -> Z :=
  let i := set_index n (upd D v true) in upd T i (Z.min (T i) (wrap32 (T (pidx n u v) + md))).
Definition dw_node (n : nat) (D : bset) (T : nat -> Z) (u : nat) : nat -> Z :=
  fold_left (dw_write n D u (min_dist n T D u)) (seq 0 n) T.
Definition dw_set (n : nat) (T : nat -> Z) (D : bset) : nat -> Z := fold_left (dw_node n D) (seq 0 n) T.
Definition dw_size (n : nat) (T : option (nat -> Z)) (m : nat) : option (nat -> Z) :=
  match T, enumerate n m with
  | Some T, Some l => Some (fold_left (dw_set n) l T)
  | _, _ => None
  end.
Definition steiner_compute (n max : nat) (G : list arc) : option (nat -> Z) :=
  fold_left (dw_size n) (seq 2 (max - 2)) (Some (all_pairs n G fresh)).

(** ** The enumerator visits exactly the m-element subsets *)
Fixpoint desc (prev : nat) (cs : list nat) : Prop := match cs with [] => True | c :: l => (c < prev)%nat /\ desc c l end.
Fixpoint ltl (a b : list nat) : Prop :=
  match a, b with
  | c :: l, c' :: l' => ltl l l' \/ (l = l' /\ (c < c')%nat)
  | _, _ => False
  end.

Lemma desc_In p cs x : desc p cs -> In x cs -> (x < p)%nat.
Proof. revert p. induction cs as [|c l IH]; intros p D Hx; [destruct Hx|]. destruct D as [D1 D2]. destruct Hx as [<-|Hx]; [exact D1|]. specialize (IH c D2 Hx). lia. Qed.
Lemma desc_weaken p q cs : (p <= q)%nat -> desc p cs -> desc q cs.
Proof. destruct cs as [|c l]; [auto|]. cbn. intros; split; [lia|tauto]. Qed.
Lemma desc_NoDup p cs : desc p cs -> NoDup cs.
Proof. revert p. induction cs as [|c l IH]; intros p D; constructor; destruct D as [D1 D2]; [intros Hc; pose proof (desc_In _ _ _ D2 Hc); lia|eapply IH; exact D2]. Qed.
Lemma desc_len p cs : desc p cs -> (length cs <= p)%nat.
Proof. revert p. induction cs as [|c l IH]; intros p D; cbn [length]; [lia|]. destruct D as [D1 D2]. specialize (IH c D2). lia. Qed.

(** The advance yields a valid larger set and keeps the characteristic vector. *)
Lemma next_some prev cs bits cs' bits' :
  desc prev cs -> (forall x, bits x = true <-> In x cs) -> next_go prev cs bits = (Some cs', bits') ->
  desc prev cs' /\ length cs' = length cs /\ ltl cs cs' /\ cs' <> [] /\ (forall x, bits' x = true <-> In x cs').
Proof.
  revert prev bits cs' bits'. induction cs as [|c l IH]; intros prev bits cs' bits' D B E; cbn [next_go] in E; [discriminate|].
  destruct D as [D1 D2].
  assert (B1 : forall x, upd bits c false x = true <-> In x l).
  { intros x. unfold upd. destruct (Nat.eqb_spec x c) as [->|Ne].
    - split; [discriminate|]. intros Hc. pose proof (desc_In _ _ _ D2 Hc). lia.
    - rewrite B. cbn. intuition congruence. }
  destruct (Nat.ltb_spec (S c) prev) as [Hlt|Hge].
  - inversion E; subst. cbn [desc length ltl]. split; [split; [exact Hlt|eapply desc_weaken; [|exact D2]; lia]|]. split; [reflexivity|]. split; [right; split; [reflexivity|lia]|]. split; [discriminate|].
    intros x. unfold upd at 1. destruct (Nat.eqb_spec x (S c)) as [->|Ne]; [split; [left; reflexivity|reflexivity]|]. rewrite B1. cbn. intuition congruence.
  - destruct (next_go c l (upd bits c false)) as [[l'|] b'] eqn:En; [|discriminate]. inversion E; subst.
    destruct (IH c _ _ _ D2 B1 En) as (P1 & P2 & P3 & P4 & P5). destruct l' as [|h t]; [congruence|]. cbn [hd].
    destruct P1 as [P1 P1']. split; [split; [lia|split; [lia|exact P1']]|]. split; [cbn [length] in *; lia|]. split; [left; exact P3|]. split; [discriminate|].
    intros x. unfold upd at 1. destruct (Nat.eqb_spec x (S h)) as [->|Ne]; [split; [left; reflexivity|reflexivity]|]. rewrite P5. cbn. intuition congruence.
Qed.

(** No set is skipped. *)
Lemma next_succ prev cs bits s :
  desc prev cs -> desc prev s -> length s = length cs -> ltl cs s ->
  exists cs' bits', next_go prev cs bits = (Some cs', bits') /\ (s = cs' \/ ltl cs' s).
Proof.
  revert prev bits s. induction cs as [|c l IH]; intros prev bits s D Ds Hl L; destruct s as [|c' l']; try discriminate; [destruct L|].
  destruct D as [D1 D2], Ds as [E1 E2]. cbn [next_go]. destruct (Nat.ltb_spec (S c) prev) as [Hlt|Hge].
  - eexists _, _. split; [reflexivity|]. destruct L as [L|[-> L]]; [right; left; exact L|].
    destruct (Nat.eq_dec c' (S c)) as [->|Ne]; [left; reflexivity|right; right; split; [reflexivity|lia]].
  - destruct L as [L|[-> L]]; [|lia].
    assert (E2' : desc c l') by (eapply desc_weaken; [|exact E2]; lia).
    destruct (IH c (upd bits c false) l' D2 E2' ltac:(cbn in Hl; lia) L) as (cs' & bits' & En & R). rewrite En.
    eexists _, _. split; [reflexivity|]. destruct R as [->|R]; [|right; left; exact R].
    destruct cs' as [|h t]; [destruct l; cbn in Hl, L; [destruct L|discriminate]|]. cbn [hd]. destruct E2 as [E2 _].
    destruct (Nat.eq_dec c' (S h)) as [->|Ne]; [left; reflexivity|right; right; split; [reflexivity|lia]].
Qed.

Lemma next_none prev cs bits bits' : desc prev cs -> next_go prev cs bits = (None, bits') -> cs = end_set prev (length cs).
Proof.
  revert prev bits bits'. induction cs as [|c l IH]; intros prev bits bits' D E; [reflexivity|]. destruct D as [D1 D2]. cbn [next_go] in E.
  destruct (Nat.ltb_spec (S c) prev) as [Hlt|Hge]; [discriminate|].
  destruct (next_go c l (upd bits c false)) as [[l'|] b'] eqn:En; [discriminate|].
  specialize (IH c _ _ D2 En). unfold end_set in *. cbn [length seq map]. f_equal; [lia|]. rewrite IH at 1. rewrite <- (seq_shift (length l) 1), map_map.
  apply map_ext. intros x. lia.
Qed.

Lemma list_eqb_eq a b : list_eqb a b = true <-> a = b.
Proof.
  revert b. induction a as [|x a IH]; intros [|y b]; cbn; split; try congruence; try discriminate.
  - intros E. apply andb_true_iff in E. destruct E as [E1 E2]. apply Nat.eqb_eq in E1. apply IH in E2. congruence.
  - intros E. inversion E; subst. rewrite Nat.eqb_refl. apply IH. reflexivity.
Qed.

Lemma ltl_val n a b : (forall x, In x a -> (x < n)%nat) -> ltl a b -> (val n a < val n b)%nat.
Proof.
  revert b. induction a as [|c l IH]; intros [|c' l'] B L; try (destruct L; fail). cbn [val]. destruct L as [L|[-> L]]; [|nia].
  specialize (IH l' (fun x Hx => B x (or_intror Hx)) L). pose proof (B c (or_introl eq_refl)). nia.
Qed.

Lemma ltl_irrefl a : ~ ltl a a.
Proof. induction a as [|c l IH]; cbn; [tauto|]. intros [L|[_ L]]; [exact (IH L)|lia]. Qed.

Lemma enum_loop_ok n m fuel cs bits :
  (1 <= n)%nat -> desc n cs -> length cs = m -> (forall x, bits x = true <-> In x cs) -> (n ^ m - val n cs + 1 < fuel)%nat ->
  exists l, enum_loop fuel n m n cs bits = Some l /\
    (forall s, desc n s -> length s = m -> s = cs \/ ltl cs s -> exists D, In D l /\ forall x, D x = true <-> In x s) /\
    (forall D, In D l -> exists s, desc n s /\ length s = m /\ forall x, D x = true <-> In x s).
Proof.
  intros Hn. revert cs bits. induction fuel as [|fuel IH]; intros cs bits D Hl B F; [lia|]. cbn [enum_loop].
  replace (n =? S n)%nat with false by (symmetry; apply Nat.eqb_neq; lia). cbn [andb].
  assert (Bc : forall x, In x cs -> (x < n)%nat) by (intros x Hx; eapply desc_In; eassumption).
  assert (Vc : (val n cs < n ^ m)%nat) by (rewrite <- Hl; apply val_bound; assumption).
  destruct (next_go n cs bits) as [[cs'|] bits'] eqn:En.
  - destruct (next_some _ _ _ _ _ D B En) as (P1 & P2 & P3 & P4 & P5). pose proof (ltl_val n _ _ Bc P3).
    assert (Vc' : (val n cs' < n ^ m)%nat) by (rewrite <- Hl, <- P2; apply val_bound; [exact Hn|intros x Hx; eapply desc_In; eassumption]).
    destruct (IH cs' bits' P1 ltac:(lia) P5 ltac:(lia)) as (l & El & Q1 & Q2). rewrite El. cbn [option_map]. eexists. split; [reflexivity|]. split.
    + intros s Ds Hs [->|L]; [exists bits; split; [left; reflexivity|exact B]|].
      destruct (next_succ n cs bits s D Ds ltac:(lia) L) as (cs2 & b2 & E2 & R). rewrite En in E2. inversion E2; subst.
      destruct (Q1 s Ds ltac:(lia) R) as (D' & I' & H'). exists D'. split; [right; exact I'|exact H'].
    + intros D' [<-|I']; [exists cs; split; [exact D|]; split; assumption|apply Q2; exact I'].
  - pose proof (next_none _ _ _ _ D En) as Ee. destruct fuel as [|fuel]; [lia|]. cbn [enum_loop]. rewrite Nat.eqb_refl.
    replace (list_eqb cs (end_set n m)) with true by (symmetry; apply list_eqb_eq; congruence). cbn [andb option_map]. eexists. split; [reflexivity|]. split.
    + intros s Ds Hs [->|L]; [exists bits; split; [left; reflexivity|exact B]|]. exfalso.
      destruct (next_succ n cs bits s D Ds ltac:(lia) L) as (cs2 & b2 & E2 & R). rewrite En in E2. discriminate.
    + intros D' [<-|[]]. exists cs. split; [exact D|]. split; assumption.
Qed.

Lemma first_set_In m x : In x (first_set m) <-> (x < m)%nat.
Proof. induction m as [|m IH]; cbn [first_set In]; [lia|]. rewrite IH. lia. Qed.
Lemma first_set_desc m p : (m <= p)%nat -> desc p (first_set m).
Proof. revert p. induction m as [|m IH]; intros p Hp; cbn [first_set desc]; [exact I|]. split; [lia|apply IH; lia]. Qed.
Lemma first_set_len m : length (first_set m) = m. Proof. induction m; cbn; congruence. Qed.
Lemma first_set_min m s : desc (S (list_max s)) s -> length s = m -> s = first_set m \/ ltl (first_set m) s.
Proof.
  assert (A : forall s p, desc p s -> s = first_set (length s) \/ ltl (first_set (length s)) s).
  { clear. induction s as [|c l IH]; intros p D; [left; reflexivity|]. destruct D as [D1 D2]. cbn [length first_set ltl].
    pose proof (desc_len _ _ D2). destruct (IH c D2) as [E|L]; [|right; left; exact L].
    destruct (Nat.eq_dec c (length l)) as [Ec|Ne]; [left; congruence|]. right. right. split; [congruence|lia]. }
  intros D <-. eapply A. exact D.
Qed.

Theorem C50_enumerator_complete n m :
  (1 <= n)%nat -> (m <= n)%nat ->
  exists l, enumerate n m = Some l /\
    (forall S, within n S -> length (filter S (seq 0 n)) = m -> exists D, In D l /\ forall x, D x = S x) /\
    (forall D, In D l -> within n D /\ length (filter D (seq 0 n)) = m).
Proof.
  intros Hn Hm.
  destruct (enum_loop_ok n m (n ^ m + 2) (first_set m) (first_bits m) Hn (first_set_desc m n Hm) (first_set_len m)) as (l & E & C & K).
  - intros x. unfold first_bits. rewrite first_set_In. apply Nat.ltb_lt.
  - lia.
  - exists l. split; [exact E|]. split.
    + intros S W Hc. fold (elems n S) in Hc.
      assert (Dr : forall p q, strict p -> (forall x, In x p -> (x < q)%nat) -> desc q (rev p)).
      { clear. intros p q SP. revert q. induction p as [|x p IH] using rev_ind; intros q B; [exact I|]. rewrite rev_app_distr. cbn [rev app desc].
        assert (SP' : strict p /\ forall y, In y p -> (y < x)%nat).
        { clear - SP. induction p as [|z p IH]; [split; [constructor|intros y []]|]. cbn [app] in SP. inversion SP as [|? ? SP' F]; subst.
          destruct (IH SP') as [A B]. rewrite Forall_forall in F. split.
          - constructor; [exact A|]. apply Forall_forall. intros y Hy. apply F, in_or_app. left; exact Hy.
          - intros y [<-|Hy]; [apply F, in_or_app; right; left; reflexivity|apply B, Hy]. }
        split; [apply B, in_or_app; right; left; reflexivity|]. apply IH; tauto. }
      pose proof (Dr (elems n S) n (elems_strict n S) ltac:(intros x Hx; apply elems_In in Hx; tauto)) as Dd.
      destruct (C (rev (elems n S)) Dd ltac:(rewrite rev_length; exact Hc)) as (D & ID & HD).
      * destruct (first_set_min m (rev (elems n S))) as [->|L]; [|rewrite rev_length; exact Hc|left; reflexivity|right; exact L].
        clear - Dd. destruct (rev (elems n S)) as [|c r]; [exact I|]. cbn [desc] in *. destruct Dd as [D1 D2]. split; [|exact D2]. cbn [list_max fold_right]. lia.
      * exists D. split; [exact ID|]. intros x. specialize (HD x). rewrite <- in_rev, elems_In in HD. specialize (W x).
        destruct (D x), (S x); try reflexivity; intuition congruence.
    + intros D ID. destruct (K D ID) as (s & Ds & Hs & HD). split; [intros x Hx; apply HD in Hx; eapply desc_In; eassumption|].
      fold (elems n D). rewrite <- Hs. apply Permutation_length. apply NoDup_Permutation; [apply strict_NoDup, elems_strict|eapply desc_NoDup; exact Ds|].
      intros x. rewrite elems_In, HD. split; [tauto|]. intros Hx. split; [eapply desc_In; eassumption|exact Hx].
Qed.

(** Finding: mt_kahypar_steiner_tree (lib/mtkahypar.cpp:680-690) initialises an uninitialised target graph with precomputeDistances(4) without taking
    the minimum with k (the partitioner does, partitioner.cpp:236-239).  For k = 2 the enumerator is created with m = 3 > n = 2 and its loop never
    meets its end state: the call does not terminate. *)
Lemma next_go_strict n c0 cs bits cs' b' : desc n cs -> next_go c0 cs bits = (Some cs', b') -> exists n', desc n' cs'.
Proof.
  intros D. revert n c0 bits cs' b' D. induction cs as [|c l IH]; intros n c0 bits cs' b' D E; cbn [next_go] in E; [discriminate|]. destruct D as [D1 D2].
  destruct (S c <? c0)%nat; [inversion E; subst; exists (S (S c)); cbn [desc]; split; [lia|eapply desc_weaken; [|exact D2]; lia]|].
  destruct (next_go c l (upd bits c false)) as [[l'|] b2] eqn:En; [|discriminate]. inversion E; subst.
  destruct (IH c c _ _ _ D2 En) as (n' & D'). exists (S (S (hd 0%nat l'))). cbn [desc]. split; [lia|]. destruct l' as [|h t]; [exact I|]. cbn [hd desc] in *. split; [lia|tauto].
Qed.

Theorem C50_refuted_two_blocks : forall fuel, enum_loop fuel 2 3 2 (first_set 3) (first_bits 3) = None.
Proof.
  assert (A : forall fuel c0 cs bits p, desc p cs -> enum_loop fuel 2 3 c0 cs bits = None).
  { induction fuel as [|fuel IH]; intros c0 cs bits p D; [reflexivity|]. cbn [enum_loop].
    replace ((c0 =? 3)%nat && list_eqb cs (end_set 2 3)) with false.
    - destruct (next_go c0 cs bits) as [[cs'|] b'] eqn:En; [destruct (next_go_strict _ _ _ _ _ _ D En) as [p' D']; rewrite (IH _ _ _ p' D'); reflexivity|rewrite (IH _ _ _ p D); reflexivity].
    - symmetry. apply andb_false_iff. right. apply not_true_is_false. intros E. apply list_eqb_eq in E. subst. vm_compute in D. destruct D as (D1 & D2 & D3 & D4). lia. }
  intros fuel. apply (A fuel 2%nat _ _ 3%nat). apply first_set_desc. lia.
Qed.

(** ** Proper subsets *)
Fixpoint mask_of (p : nat -> bool) (d : list nat) : nat := match d with [] => 0%nat | b :: r => (2 * mask_of p r + Nat.b2n (p b))%nat end.
Lemma mask_bit p d i : (i < length d)%nat -> Nat.testbit (mask_of p d) i = p (nth i d 0%nat).
Proof.
  revert i. induction d as [|b d IH]; intros i Hi; cbn [length] in Hi; [lia|]. cbn [mask_of]. destruct i as [|i].
  - rewrite Nat.testbit_0_r. reflexivity.
  - rewrite Nat.testbit_succ_r. apply IH. lia.
Qed.
Lemma mask_bound p d : (mask_of p d < 2 ^ length d)%nat.
Proof. induction d as [|b d IH]; cbn [mask_of length Nat.pow]; [lia|]. destruct (p b); cbn [Nat.b2n]; lia. Qed.
Lemma mask_pos p d x : In x d -> p x = true -> (0 < mask_of p d)%nat.
Proof. induction d as [|b d IH]; intros Hx Px; [destruct Hx|]. cbn [mask_of]. destruct Hx as [->|Hx]; [rewrite Px; cbn; lia|]. specialize (IH Hx Px). lia. Qed.
Lemma mask_top p d x : In x d -> p x = false -> (mask_of p d + 1 < 2 ^ length d)%nat.
Proof.
  induction d as [|b d IH]; intros Hx Px; [destruct Hx|]. cbn [mask_of length Nat.pow]. destruct Hx as [->|Hx].
  - rewrite Px. cbn [Nat.b2n]. pose proof (mask_bound p d). lia.
  - specialize (IH Hx Px). destruct (p b); cbn [Nat.b2n]; lia.
Qed.
Lemma mask_set_spec p d x : mask_set d (mask_of p d) x = mem x d && p x.
Proof.
  unfold mask_set. destruct (mem_spec x d) as [Hx|Hx]; cbn [andb].
  - destruct (p x) eqn:Px.
    + apply existsb_exists. destruct (In_nth d x 0%nat Hx) as (i & Hi & Ei). exists i. split; [apply in_seq; lia|]. rewrite Ei, Nat.eqb_refl, mask_bit by exact Hi. cbn [andb]. rewrite Ei. exact Px.
    + apply not_true_is_false. intros E. apply existsb_exists in E. destruct E as (i & Hi & E). apply in_seq in Hi. apply andb_true_iff in E. destruct E as [E1 E2].
      apply Nat.eqb_eq in E1. rewrite mask_bit, E1 in E2 by lia. congruence.
  - apply not_true_is_false. intros E. apply existsb_exists in E. destruct E as (i & Hi & E). apply in_seq in Hi. apply andb_true_iff in E. destruct E as [E1 E2].
    apply Nat.eqb_eq in E1. apply Hx. rewrite <- E1. apply nth_In. lia.
Qed.
Lemma mask_set_sub d m x : mask_set d m x = true -> In x d.
Proof.
  intros E. apply existsb_exists in E. destruct E as (i & Hi & E). apply in_seq in Hi. apply andb_true_iff in E. destruct E as [E1 _].
  apply Nat.eqb_eq in E1. rewrite <- E1. apply nth_In. lia.
Qed.

(** The set and subset iterators visit every split of a set. *)
Lemma subsets_complete d (p : nat -> bool) :
  (exists x, In x d /\ p x = true) -> (exists x, In x d /\ p x = false) ->
  exists E, In E (proper_subsets d) /\ forall x, E x = mem x d && p x.
Proof.
  intros (x & Hx & Px) (y & Hy & Py). exists (mask_set d (mask_of p d)). split; [|apply mask_set_spec].
  unfold proper_subsets. apply in_map. apply in_seq. pose proof (mask_pos p d x Hx Px). pose proof (mask_top p d y Hy Py). lia.
Qed.
Lemma subsets_sub d E x : In E (proper_subsets d) -> E x = true -> In x d.
Proof. intros I. unfold proper_subsets in I. apply in_map_iff in I. destruct I as (m & <- & _). apply mask_set_sub. Qed.

(** ** Correctness of the dynamic program *)
Lemma joined_walk n G (TG : target n G) L u v : incl L G -> joined L u v -> exists b, walk G u v b /\ b <= weight L.
Proof.
  intros I J. destruct (grow n G L u TG I) as (D & w & ST & Hw & C). destruct (stree_walk n G u D w v TG ST (C v J)) as (b & W & Hb). exists b. split; [exact W|lia].
Qed.

Section DW.
Variables (n : nat) (G : list arc).
Hypothesis Hn : (2 <= n)%nat.
Hypothesis TG : target n G.
Hypothesis Hconn : forall u v, (u < n)%nat -> (v < n)%nat -> exists w, walk G u v w /\ w < kInv.

Definition Sound (T : nat -> Z) : Prop :=
  forall S, within n S -> (exists x, S x = true) ->
    0 <= T (set_index n S) <= kInv /\
    (T (set_index n S) = kInv \/ exists L, incl L G /\ connects L (members S) /\ weight L <= T (set_index n S)).
Definition Compl (m : nat) (T : nat -> Z) : Prop :=
  forall S, within n S -> (exists x, S x = true) -> (card n S <= m)%nat ->
    forall L, incl L G -> connects L (members S) -> T (set_index n S) <= weight L.
Definition Pairs (T : nat -> Z) : Prop := forall u v, (u < n)%nat -> (v < n)%nat -> is_dist G u v (T (pidx n u v)).
Definition lower (T T' : nat -> Z) : Prop := forall i, T' i <= T i.

Lemma dist_lt u v d : (u < n)%nat -> (v < n)%nat -> is_dist G u v d -> 0 <= d < kInv.
Proof.
  intros Hu Hv [W M]. destruct (Hconn u v Hu Hv) as (w & Ww & Hw). specialize (M w Ww). pose proof (walk_nonneg _ _ _ _ _ TG W). lia.
Qed.

(** Every nonempty block set is a single block, a pair or has at least three blocks. *)
Lemma set_cases S : within n S -> (exists x, S x = true) ->
  (exists u v, (u <= v)%nat /\ (v < n)%nat /\ forall x, S x = ((x =? u) || (x =? v))%nat) \/ (3 <= card n S)%nat.
Proof.
  intros W [x0 Hx0]. unfold card. pose proof (elems_strict n S) as SL.
  assert (M : forall x, S x = true <-> In x (elems n S)) by (intros x; rewrite elems_In; specialize (W x); tauto).
  destruct (elems n S) as [|a [|b [|c l]]].
  - apply M in Hx0. destruct Hx0.
  - left. exists a, a. split; [lia|]. split; [apply W, M; left; reflexivity|]. intros x. specialize (M x). cbn [In] in M.
    destruct (Nat.eqb_spec x a) as [->|Ne]; cbn [orb]; [apply M; left; reflexivity|]. destruct (S x); [|reflexivity]. exfalso. destruct M as [M _]. specialize (M eq_refl). intuition congruence.
  - left. inversion SL as [|? ? SL' F]; subst. inversion F as [|? ? Hab F']; subst. exists a, b. split; [lia|]. split; [apply W, M; right; left; reflexivity|]. intros x. specialize (M x). cbn [In] in M.
    destruct (Nat.eqb_spec x a) as [->|Ne]; cbn [orb]; [apply M; left; reflexivity|]. destruct (Nat.eqb_spec x b) as [->|Ne']; [apply M; right; left; reflexivity|].
    destruct (S x); [|reflexivity]. exfalso. destruct M as [M _]. specialize (M eq_refl). intuition congruence.
  - right. cbn. lia.
Qed.

Lemma pair_connects u v L S : (forall x, S x = ((x =? u) || (x =? v))%nat) -> (connects L (members S) <-> joined L u v).
Proof.
  intros E. split.
  - intros C. apply C; unfold members; rewrite E, Nat.eqb_refl; [reflexivity|apply orb_true_r].
  - intros J. apply (connects_hub L _ u). intros x Hx. unfold members in Hx. rewrite E in Hx. apply orb_true_iff in Hx. rewrite !Nat.eqb_eq in Hx. destruct Hx as [->| ->]; [constructor|exact J].
Qed.

Lemma initial_ok : (forall u v a, In (u, v, a) G -> a <= kInv) -> Sound (all_pairs n G fresh) /\ Compl 2 (all_pairs n G fresh) /\ Pairs (all_pairs n G fresh).
Proof.
  intros Hw. destruct (floyd_spec n G TG Hw) as [F Big].
  assert (P : Pairs (all_pairs n G fresh)).
  { intros u v Hu Hv. exact (proj2 (C42_distances_are_shortest_paths n G TG Hw Hconn u v Hu Hv)). }
  split; [|split; [|exact P]].
  - intros S W NS. destruct (set_cases S W NS) as [(u & v & Huv & Hv & E)|Hc].
    + rewrite (set_index_pair n S u v Hn Huv Hv (fun x _ => E x)). assert (Hu : (u < n)%nat) by lia.
      pose proof (P u v Hu Hv) as Pd. pose proof (dist_lt u v _ Hu Hv Pd). split; [lia|]. right. destruct Pd as [Wk _].
      destruct (walk_edges G u v _ Wk) as (L & I & J & Hwt). exists L. split; [exact I|]. split; [apply (pair_connects u v L S E); exact J|lia].
    + rewrite Big by (apply set_index_big; assumption). pose proof kInv_lt. split; [lia|left; reflexivity].
  - intros S W NS Hc L I C. destruct (set_cases S W NS) as [(u & v & Huv & Hv & E)|Hc']; [|lia].
    rewrite (set_index_pair n S u v Hn Huv Hv (fun x _ => E x)). pose proof (proj1 (pair_connects u v L S E) C) as C'. clear C. rename C' into C.
    destruct (joined_walk n G TG L u v I C) as (b & Wk & Hb). destruct (P u v ltac:(lia) Hv) as [_ M]. specialize (M b Wk). lia.
Qed.

(** min_dist is at most every split and is attained. *)
Lemma min_fold (f : bset -> Z) l m :
  let r := fold_left (fun md E => Z.min md (f E)) l m in
  r <= m /\ (forall E, In E l -> r <= f E) /\ (r = m \/ exists E, In E l /\ r = f E).
Proof.
  revert m. induction l as [|E l IH]; intros m; cbn [fold_left]; cbv zeta; [split; [lia|split; [intros E []|left; reflexivity]]|].
  destruct (IH (Z.min m (f E))) as (A & B & C). split; [lia|]. split.
  - intros E' [<-|I]; [lia|apply B, I].
  - destruct C as [C|(E' & I & C)]; [|right; exists E'; split; [right; exact I|exact C]].
    rewrite C. destruct (Z.min_spec m (f E)) as [[_ M]|[_ M]]; [left; exact M|right; exists E; split; [left; reflexivity|exact M]].
Qed.

Lemma within_upd S v : within n S -> (v < n)%nat -> within n (upd S v true).
Proof. intros W Hv x Hx. unfold upd in Hx. destruct (Nat.eqb_spec x v) as [E|Ne]; [rewrite E; exact Hv|apply W, Hx]. Qed.

Lemma min_dist_ok T D u :
  Sound T -> within n D -> (2 <= card n D)%nat -> (u < n)%nat ->
  let md := min_dist n T D u in
  0 <= md <= 2 * kInv /\
  (forall p, (exists x, D x = true /\ p x = true) -> (exists x, D x = true /\ p x = false) ->
     exists E F, (forall x, E x = (D x && p x || (x =? u))%nat) /\ (forall x, F x = (D x && negb (p x) || (x =? u))%nat) /\
                 md <= T (set_index n E) + T (set_index n F)) /\
  (kInv <= md \/ exists L, incl L G /\ connects L (members (upd D u true)) /\ weight L <= md).
Proof.
  intros HS W Hc Hu. cbv zeta. unfold min_dist.
  set (f := fun E : bset => wrap32 (T (set_index n (upd E u true)) + T (set_index n (upd (bxor D E) u true)))).
  pose proof (min_fold f (proper_subsets (elems n D)) (2 ^ 31 - 1)) as MF. cbv zeta in MF.
  change (fold_left (fun md E => Z.min md (wrap32 (T (set_index n (upd E u true)) + T (set_index n (upd (bxor D E) u true))))) (proper_subsets (elems n D)) (2 ^ 31 - 1))
    with (fold_left (fun md E => Z.min md (f E)) (proper_subsets (elems n D)) (2 ^ 31 - 1)).
  set (md := fold_left (fun md E => Z.min md (f E)) (proper_subsets (elems n D)) (2 ^ 31 - 1)) in *. clearbody md.
  destruct MF as (M1 & M2 & M3).
  assert (Fv : forall E, In E (proper_subsets (elems n D)) ->
            within n (upd E u true) /\ within n (upd (bxor D E) u true) /\
            f E = T (set_index n (upd E u true)) + T (set_index n (upd (bxor D E) u true)) /\
            0 <= T (set_index n (upd E u true)) <= kInv /\ 0 <= T (set_index n (upd (bxor D E) u true)) <= kInv).
  { intros E I.
    assert (WE : within n E) by (intros x Hx; apply (subsets_sub _ _ _ I) in Hx; apply elems_In in Hx; tauto).
    assert (W1 : within n (upd E u true)) by (apply within_upd; assumption).
    assert (W2 : within n (upd (bxor D E) u true)).
    { apply within_upd; [|exact Hu]. intros x Hx. unfold bxor in Hx. destruct (D x) eqn:Ed; [apply W, Ed|]. destruct (E x) eqn:Ee; [apply WE, Ee|discriminate]. }
    destruct (HS _ W1 ltac:(exists u; apply upd_same)) as [B1 _]. destruct (HS _ W2 ltac:(exists u; apply upd_same)) as [B2 _].
    split; [exact W1|]. split; [exact W2|]. split; [|split; assumption]. unfold f. apply wrap_sum; assumption. }
  assert (Ex : exists E, In E (proper_subsets (elems n D))).
  { unfold card in Hc. pose proof (strict_NoDup _ (elems_strict n D)) as ND. destruct (elems n D) as [|a [|b l]] eqn:Ed; cbn [length] in Hc; try lia.
    destruct (subsets_complete (a :: b :: l) (fun x => x =? a)%nat) as (E & I & _).
    - exists a. split; [left; reflexivity|apply Nat.eqb_refl].
    - exists b. split; [right; left; reflexivity|]. apply Nat.eqb_neq. intros ->. inversion ND as [|? ? N1 _]; subst. apply N1. left; reflexivity.
    - exists E. exact I. }
  destruct Ex as (E0 & I0).
  assert (Hmd : md <= 2 * kInv) by (specialize (M2 E0 I0); destruct (Fv E0 I0) as (_ & _ & Ef & ? & ?); lia).
  assert (Hatt : exists E, In E (proper_subsets (elems n D)) /\ md = f E).
  { destruct M3 as [M3|M3]; [|exact M3]. exfalso. rewrite M3 in Hmd. rewrite kInv_val in Hmd. lia. }
  destruct Hatt as (E & I & Emd). destruct (Fv E I) as (W1 & W2 & Ef & B1 & B2).
  split; [lia|]. split.
  - intros p (x & Dx & Px) (y & Dy & Py).
    destruct (subsets_complete (elems n D) p) as (E' & I' & HE').
    + exists x. split; [apply elems_In; split; [apply W, Dx|exact Dx]|exact Px].
    + exists y. split; [apply elems_In; split; [apply W, Dy|exact Dy]|exact Py].
    + assert (HD : forall z, mem z (elems n D) = D z).
      { intros z. destruct (mem_spec z (elems n D)) as [Hz|Hz]; rewrite elems_In in Hz; [symmetry; tauto|]. destruct (D z) eqn:Ez; [|reflexivity]. exfalso. apply Hz. split; [apply W, Ez|reflexivity]. }
      exists (upd E' u true), (upd (bxor D E') u true). split; [|split].
      * intros z. unfold upd. destruct (Nat.eqb_spec z u); [rewrite orb_true_r; reflexivity|]. rewrite orb_false_r, HE', HD. reflexivity.
      * intros z. unfold upd, bxor. destruct (Nat.eqb_spec z u); [rewrite orb_true_r; reflexivity|]. rewrite orb_false_r, HE', HD. destruct (D z), (p z); reflexivity.
      * specialize (M2 E' I'). destruct (Fv E' I') as (_ & _ & Ef' & _). lia.
  - destruct (HS _ W1 ltac:(exists u; apply upd_same)) as [_ [K1|(L1 & IL1 & C1 & Hw1)]]; [left; lia|].
    destruct (HS _ W2 ltac:(exists u; apply upd_same)) as [_ [K2|(L2 & IL2 & C2 & Hw2)]]; [left; lia|].
    right. exists (L1 ++ L2). split; [intros e He; apply in_app_iff in He; destruct He; auto|]. split; [|rewrite weight_app; lia].
    apply (connects_hub _ _ u). intros x Hx. unfold members, upd in Hx. destruct (Nat.eqb_spec x u) as [Exu|Ne]; [rewrite Exu; constructor|].
    destruct (E x) eqn:Ee.
    + apply (joined_incl L1); [intros e He; apply in_app_iff; left; exact He|]. apply C1; unfold members; [apply upd_same|rewrite upd_other by exact Ne; exact Ee].
    + apply (joined_incl L2); [intros e He; apply in_app_iff; right; exact He|]. apply C2; unfold members; [apply upd_same|rewrite upd_other by exact Ne; unfold bxor; rewrite Hx, Ee; reflexivity].
Qed.

Lemma write_ok T D u v md :
  Sound T -> Pairs T -> within n D -> (u < n)%nat -> (v < n)%nat -> 0 <= md <= 2 * kInv ->
  (kInv <= md \/ exists L, incl L G /\ connects L (members (upd D u true)) /\ weight L <= md) ->
  let T' := dw_write n D u md T v in
  Sound T' /\ Pairs T' /\ lower T T' /\ T' (set_index n (upd D v true)) <= T (pidx n u v) + md.
Proof.
  intros HS HP W Hu Hv Hmd HL. cbv zeta. unfold dw_write.
  pose proof (HP u v Hu Hv) as Pd. pose proof (dist_lt u v _ Hu Hv Pd) as Bd.
  assert (Ew : wrap32 (T (pidx n u v) + md) = T (pidx n u v) + md) by (apply wrap32_id; rewrite kInv_val in *; lia). rewrite Ew.
  set (S0 := upd D v true). assert (W0 : within n S0) by (apply within_upd; assumption).
  assert (N0 : exists x, S0 x = true) by (exists v; apply upd_same).
  set (i := set_index n S0).
  assert (HS' : Sound (upd T i (Z.min (T i) (T (pidx n u v) + md)))).
  { intros S WS NS. destruct (Nat.eq_dec (set_index n S) i) as [Ei|Ni]; [|rewrite upd_other by exact Ni; apply HS; assumption].
    rewrite Ei, upd_same.
    assert (ES : forall x, S x = S0 x).
    { apply (C43_index_injective n); assumption. }
    destruct (HS S0 W0 N0) as [B C]. fold i in B, C. split; [lia|].
    destruct (Z.min_spec (T i) (T (pidx n u v) + md)) as [[Hlt ->]|[Hge ->]].
    - destruct C as [C|(L & I & C & Hw)]; [left; exact C|right; exists L; split; [exact I|]; split; [|exact Hw]].
      intros x y Hx Hy. apply C; unfold members in *; rewrite <- ES; assumption.
    - destruct HL as [HL|(L & I & C' & Hw)]; [left; lia|]. right. destruct Pd as [Wk _]. destruct (walk_edges G u v _ Wk) as (L2 & I2 & J2 & Hw2).
      exists (L ++ L2). split; [intros e He; apply in_app_iff in He; destruct He; auto|]. split; [|rewrite weight_app; lia].
      apply (connects_hub _ _ u). intros x Hx. unfold members in Hx. rewrite ES in Hx. unfold S0, upd in Hx. destruct (Nat.eqb_spec x v) as [Exv|Ne].
      + rewrite Exv. apply (joined_incl L2); [intros e He; apply in_app_iff; right; exact He|exact J2].
      + apply (joined_incl L); [intros e He; apply in_app_iff; left; exact He|]. apply C'; unfold members; [apply upd_same|]. unfold upd. destruct (x =? u)%nat; [reflexivity|exact Hx]. }
  assert (HLow : lower T (upd T i (Z.min (T i) (T (pidx n u v) + md)))).
  { intros j. unfold upd. destruct (Nat.eqb_spec j i); subst; lia. }
  split; [exact HS'|]. split; [|split; [exact HLow|rewrite upd_same; lia]].
  intros p q Hp Hq. pose proof (HP p q Hp Hq) as Pp. destruct (Nat.eq_dec (pidx n p q) i) as [Ei|Ni]; [|rewrite upd_other by exact Ni; exact Pp].
  destruct (set_index_pair_inv n S0 p q Hn Hp Hq ltac:(exists v; split; [exact Hv|apply upd_same]) (eq_sym Ei)) as [Hpq E].
  assert (E' : forall x, S0 x = ((x =? p) || (x =? q))%nat).
  { intros x. destruct (lt_dec x n) as [Hx|Hx]; [apply E, Hx|]. destruct (S0 x) eqn:Ex; [apply W0 in Ex; lia|]. symmetry. apply orb_false_iff. rewrite !Nat.eqb_neq. lia. }
  set (T' := upd T i (Z.min (T i) (T (pidx n u v) + md))) in *. clearbody T'.
  destruct (HS' S0 W0 N0) as [B C]. specialize (HLow (pidx n p q)). pose proof (dist_lt p q _ Hp Hq Pp). fold i in B, C. rewrite <- Ei in B, C.
  destruct C as [C|(L & I & C & Hw)]; [lia|]. pose proof (proj1 (pair_connects p q L S0 E') C) as C'. clear C. rename C' into C. destruct (joined_walk n G TG L p q I C) as (b & Wk & Hb). destruct Pp as [Wp Mp].
  specialize (Mp b Wk) as Mb. assert (Eq : T' (pidx n p q) = T (pidx n p q)) by lia.
  rewrite Eq. split; assumption.
Qed.

Lemma lower_refl T : lower T T. Proof. intros i. lia. Qed.
Lemma lower_trans T1 T2 T3 : lower T1 T2 -> lower T2 T3 -> lower T1 T3.
Proof. intros A B i. specialize (A i). specialize (B i). lia. Qed.

Lemma node_ok T D u :
  Sound T -> Pairs T -> within n D -> (2 <= card n D)%nat -> (u < n)%nat ->
  let T' := dw_node n D T u in
  Sound T' /\ Pairs T' /\ lower T T' /\ (forall v, (v < n)%nat -> T' (set_index n (upd D v true)) <= T (pidx n u v) + min_dist n T D u).
Proof.
  intros HS HP W Hc Hu. cbv zeta. unfold dw_node. destruct (min_dist_ok T D u HS W Hc Hu) as (B & _ & HL). set (md := min_dist n T D u) in *. clearbody md.
  assert (A : forall vs T1, (forall v, In v vs -> (v < n)%nat) -> Sound T1 -> Pairs T1 -> lower T T1 ->
      let T2 := fold_left (dw_write n D u md) vs T1 in
      Sound T2 /\ Pairs T2 /\ lower T1 T2 /\ forall v, In v vs -> T2 (set_index n (upd D v true)) <= T (pidx n u v) + md).
  { induction vs as [|v vs IH]; intros T1 Hvs HS1 HP1 L1; cbn [fold_left]; cbv zeta.
    - split; [exact HS1|]. split; [exact HP1|]. split; [apply lower_refl|intros v []].
    - assert (Hv : (v < n)%nat) by (apply Hvs; left; reflexivity). destruct (write_ok T1 D u v md HS1 HP1 W Hu Hv B HL) as (A1 & A2 & A3 & A4).
      destruct (IH _ (fun x Hx => Hvs x (or_intror Hx)) A1 A2 (lower_trans _ _ _ L1 A3)) as (C1 & C2 & C3 & C4).
      split; [exact C1|]. split; [exact C2|]. split; [eapply lower_trans; eassumption|]. intros x [<-|Hx]; [|apply C4, Hx].
      specialize (C3 (set_index n (upd D v true))). specialize (L1 (pidx n u v)). lia. }
  destruct (A (seq 0 n) T ltac:(intros v Hv; apply in_seq in Hv; lia) HS HP (lower_refl T)) as (C1 & C2 & C3 & C4).
  split; [exact C1|]. split; [exact C2|]. split; [exact C3|]. intros v Hv. apply C4. apply in_seq. lia.
Qed.

Lemma Compl_lower m T T' : Compl m T -> lower T T' -> Compl m T'.
Proof. intros C L S W N Hc Lx I Cx. specialize (C S W N Hc Lx I Cx). specialize (L (set_index n S)). lia. Qed.

(** Cardinality of a part plus one node. *)
Lemma card_part D E u m y : within n D -> card n D = m -> (forall x, E x = true -> D x = true \/ x = u) -> D y = true -> E y = false \/ y = u -> (u < n)%nat ->
  y <> u -> (card n E <= m)%nat.
Proof.
  intros W Hc HE Dy Ey Hu Hyu. destruct Ey as [Ey|Ey]; [|congruence]. rewrite <- Hc. unfold card.
  assert (ND : NoDup (u :: filter (fun x => negb (x =? y)%nat && negb (x =? u)%nat) (elems n D))).
  { constructor; [intros I; apply filter_In in I; rewrite Nat.eqb_refl, andb_false_r in I; destruct I; discriminate|]. apply NoDup_filter_, strict_NoDup, elems_strict. }
  assert (H1 : (length (elems n E) <= length (u :: filter (fun x => negb (x =? y)%nat && negb (x =? u)%nat) (elems n D)))%nat).
  { apply NoDup_incl_length; [apply strict_NoDup, elems_strict|]. intros x Hx. apply elems_In in Hx. destruct Hx as [Hx Ex].
    destruct (Nat.eq_dec x u) as [->|Ne]; [left; reflexivity|]. right. apply filter_In. destruct (HE x Ex) as [Dx|]; [|congruence]. split; [apply elems_In; tauto|].
    apply andb_true_iff. rewrite !negb_true_iff, !Nat.eqb_neq. split; [intros ->; congruence|exact Ne]. }
  assert (H2 : (length (y :: filter (fun x => negb (x =? y)%nat && negb (x =? u)%nat) (elems n D)) <= length (elems n D))%nat).
  { apply NoDup_incl_length.
    - constructor; [intros I; apply filter_In in I; rewrite Nat.eqb_refl in I; destruct I; discriminate|]. apply NoDup_filter_, strict_NoDup, elems_strict.
    - intros x [<-|Hx]; [apply elems_In; split; [apply W, Dy|exact Dy]|apply filter_In in Hx; tauto]. }
  cbn [length] in *. lia.
Qed.

Lemma card_part' D E u m y : within n D -> card n D = m -> (forall x, E x = true -> D x = true \/ x = u) -> D y = true -> E y = false -> (u < n)%nat -> E u = true -> (card n E <= m)%nat.
Proof. intros W Hc HE Dy Ey Hu Eu. apply (card_part D E u m y); auto. intros ->. congruence. Qed.

Lemma set_ok m T D :
  (2 <= m)%nat -> Sound T -> Pairs T -> Compl m T -> within n D -> card n D = m ->
  let T' := dw_set n T D in
  Sound T' /\ Pairs T' /\ lower T T' /\
  (forall v, (v < n)%nat -> forall L, incl L G -> connects L (members (upd D v true)) -> T' (set_index n (upd D v true)) <= weight L).
Proof.
  intros Hm HS HP HC W Hc. cbv zeta. unfold dw_set.
  assert (A : forall us T1, (forall u, In u us -> (u < n)%nat) -> Sound T1 -> Pairs T1 -> Compl m T1 ->
      let T2 := fold_left (dw_node n D) us T1 in
      Sound T2 /\ Pairs T2 /\ lower T1 T2 /\
      (forall u v, In u us -> (v < n)%nat -> exists T3, Sound T3 /\ Pairs T3 /\ Compl m T3 /\ T2 (set_index n (upd D v true)) <= T3 (pidx n u v) + min_dist n T3 D u)).
  { induction us as [|u us IH]; intros T1 Hus HS1 HP1 HC1; cbn [fold_left]; cbv zeta.
    - split; [exact HS1|]. split; [exact HP1|]. split; [apply lower_refl|intros u v []].
    - assert (Hu : (u < n)%nat) by (apply Hus; left; reflexivity).
      destruct (node_ok T1 D u HS1 HP1 W ltac:(lia) Hu) as (A1 & A2 & A3 & A4).
      destruct (IH _ (fun x Hx => Hus x (or_intror Hx)) A1 A2 (Compl_lower _ _ _ HC1 A3)) as (C1 & C2 & C3 & C4).
      split; [exact C1|]. split; [exact C2|]. split; [eapply lower_trans; eassumption|]. intros x v [<-|Hx] Hv; [|apply C4; assumption].
      exists T1. split; [exact HS1|]. split; [exact HP1|]. split; [exact HC1|]. specialize (C3 (set_index n (upd D v true))). specialize (A4 v Hv). lia. }
  destruct (A (seq 0 n) T ltac:(intros u Hu; apply in_seq in Hu; lia) HS HP HC) as (C1 & C2 & C3 & C4).
  split; [exact C1|]. split; [exact C2|]. split; [exact C3|]. intros v Hv L I C.
  destruct (grow n G L v TG I) as (Dt & w & ST & Hw & Cov).
  destruct (decompose n G v Dt w (elems n D) TG ST) as (u & a & w1 & w2 & DE & DF & p & Wk & S1 & S2 & Hle & (x1 & X1 & P1) & (x2 & X2 & P2) & PE & PF).
  { intros x Hx. apply elems_In in Hx. apply Cov. apply C; unfold members; [apply upd_same|]. unfold upd. destruct (x =? v)%nat; tauto. }
  { apply strict_NoDup, elems_strict. }
  { fold (card n D). lia. }
  apply elems_In in X1, X2.
  assert (Hu : (u < n)%nat) by (eapply walk_range; eassumption).
  destruct (C4 u v ltac:(apply in_seq; lia) Hv) as (T3 & HS3 & HP3 & HC3 & Hval).
  destruct (min_dist_ok T3 D u HS3 W ltac:(lia) Hu) as (_ & Hsplit & _).
  destruct (Hsplit p) as (E & F & HE & HF & Hmd); [exists x1; tauto|exists x2; tauto|].
  assert (Bound : forall Q DQ wq y, (forall x, Q x = true -> D x = true \/ x = u) -> stree G u DQ wq -> Q u = true -> D y = true ->
             (y <> u -> Q y = false) -> (forall x, Q x = true -> x = u \/ In x DQ) -> (y = u -> (card n Q <= m)%nat) -> T3 (set_index n Q) <= wq).
  { intros Q DQ wq y HQ SQ Qu Dy Qy HQD Hyu. destruct (stree_edges G u DQ wq SQ) as (LQ & IQ & WQ & CQ). rewrite <- WQ.
    apply HC3; [|exists u; exact Qu| |exact IQ|].
    - intros x Hx. destruct (HQ x Hx) as [Dx| ->]; [apply W, Dx|exact Hu].
    - destruct (Nat.eq_dec y u) as [Ey|Ny]; [exact (Hyu Ey)|]. apply (card_part' D Q u m y); auto.
    - apply (connects_hub _ _ u). intros x Hx. apply CQ. destruct (HQD x Hx) as [->|Hd]; [eapply stree_root; exact SQ|exact Hd]. }
  assert (CardSub : forall Q y, (forall x, Q x = true -> D x = true \/ x = u) -> y = u -> D y = true -> (card n Q <= m)%nat).
  { intros Q y HQ -> Du. rewrite <- Hc. unfold card. apply NoDup_incl_length; [apply strict_NoDup, elems_strict|]. intros x Hx. apply elems_In in Hx. apply elems_In.
    destruct (HQ x (proj2 Hx)) as [Dx| ->]; tauto. }
  assert (HE' : forall x, E x = true -> D x = true \/ x = u) by (intros x Hx; rewrite HE in Hx; apply orb_true_iff in Hx; rewrite Nat.eqb_eq in Hx; destruct Hx as [Hx|Hx]; [apply andb_true_iff in Hx; tauto|tauto]).
  assert (HF' : forall x, F x = true -> D x = true \/ x = u) by (intros x Hx; rewrite HF in Hx; apply orb_true_iff in Hx; rewrite Nat.eqb_eq in Hx; destruct Hx as [Hx|Hx]; [apply andb_true_iff in Hx; tauto|tauto]).
  assert (BE : T3 (set_index n E) <= w1).
  { apply (Bound E DE w1 x2 HE' S1).
    - rewrite HE, Nat.eqb_refl. apply orb_true_r.
    - tauto.
    - intros Ne. rewrite HE, P2, andb_false_r. cbn [orb]. apply Nat.eqb_neq. exact Ne.
    - intros x Hx. rewrite HE in Hx. apply orb_true_iff in Hx. rewrite Nat.eqb_eq in Hx. destruct Hx as [Hx|Hx]; [|tauto]. apply andb_true_iff in Hx. right. apply PE; [apply elems_In; split; [apply W; tauto|tauto]|tauto].
    - intros Ey. apply (CardSub E x2 HE' Ey). tauto. }
  assert (BF : T3 (set_index n F) <= w2).
  { apply (Bound F DF w2 x1 HF' S2).
    - rewrite HF, Nat.eqb_refl. apply orb_true_r.
    - tauto.
    - intros Ne. rewrite HF, P1. cbn [negb]. rewrite andb_false_r. cbn [orb]. apply Nat.eqb_neq. exact Ne.
    - intros x Hx. rewrite HF in Hx. apply orb_true_iff in Hx. rewrite Nat.eqb_eq in Hx. destruct Hx as [Hx|Hx]; [|tauto]. apply andb_true_iff in Hx. rewrite negb_true_iff in Hx. right. apply PF; [apply elems_In; split; [apply W; tauto|tauto]|tauto].
    - intros Ey. apply (CardSub F x1 HF' Ey). tauto. }
  destruct (HP3 u v Hu Hv) as [_ Md]. specialize (Md a (walk_rev n G v u a TG Wk)). lia.
Qed.

Lemma size_ok m T :
  (2 <= m)%nat -> (m <= n)%nat -> Sound T -> Pairs T -> Compl m T ->
  exists T', dw_size n (Some T) m = Some T' /\ Sound T' /\ Pairs T' /\ Compl (S m) T' /\ lower T T'.
Proof.
  intros Hm Hmn HS HP HC. destruct (C50_enumerator_complete n m ltac:(lia) Hmn) as (l & E & Cov & Val). cbn [dw_size]. rewrite E. eexists. split; [reflexivity|].
  assert (A : forall ds T1, (forall D, In D ds -> within n D /\ card n D = m) -> Sound T1 -> Pairs T1 -> Compl m T1 ->
      let T2 := fold_left (dw_set n) ds T1 in
      Sound T2 /\ Pairs T2 /\ lower T1 T2 /\
      (forall D, In D ds -> forall v, (v < n)%nat -> forall L, incl L G -> connects L (members (upd D v true)) -> T2 (set_index n (upd D v true)) <= weight L)).
  { induction ds as [|D ds IH]; intros T1 Hds HS1 HP1 HC1; cbn [fold_left]; cbv zeta.
    - split; [exact HS1|]. split; [exact HP1|]. split; [apply lower_refl|intros D []].
    - destruct (Hds D (or_introl eq_refl)) as [WD CD]. destruct (set_ok m T1 D Hm HS1 HP1 HC1 WD CD) as (A1 & A2 & A3 & A4).
      destruct (IH _ (fun x Hx => Hds x (or_intror Hx)) A1 A2 (Compl_lower _ _ _ HC1 A3)) as (C1 & C2 & C3 & C4).
      split; [exact C1|]. split; [exact C2|]. split; [eapply lower_trans; eassumption|]. intros D' [<-|I'] v Hv L I C; [|exact (C4 D' I' v Hv L I C)].
      specialize (C3 (set_index n (upd D v true))). specialize (A4 v Hv L I C). lia. }
  destruct (A l T Val HS HP HC) as (C1 & C2 & C3 & C4).
  split; [exact C1|]. split; [exact C2|]. split; [|exact C3].
  intros Q W NQ Hc L I C. destruct (le_lt_dec (card n Q) m) as [Hle|Hgt]; [apply (Compl_lower m T _ HC C3); assumption|].
  destruct NQ as [v Qv]. assert (Hv : (v < n)%nat) by (apply W, Qv).
  set (D0 := upd Q v false).
  assert (CD0 : card n D0 = m).
  { unfold card in *. assert (Pm : Permutation (elems n Q) (v :: elems n D0)).
    { apply NoDup_Permutation; [apply strict_NoDup, elems_strict|constructor; [intros Hi; apply elems_In in Hi; unfold D0 in Hi; rewrite upd_same in Hi; destruct Hi; discriminate|apply strict_NoDup, elems_strict]|].
      intros x. cbn [In]. rewrite !elems_In. unfold D0, upd. destruct (Nat.eqb_spec x v) as [->|Ne]; intuition congruence. }
    apply Permutation_length in Pm. cbn [length] in Pm. lia. }
  assert (WD0 : within n D0) by (intros x Hx; unfold D0, upd in Hx; destruct (x =? v)%nat; [discriminate|apply W, Hx]).
  destruct (Cov D0 WD0 CD0) as (D & ID & ED).
  assert (EQ : forall x, upd D v true x = Q x) by (intros x; unfold upd; destruct (Nat.eqb_spec x v) as [->|Ne]; [symmetry; exact Qv|rewrite ED; unfold D0; apply upd_other; exact Ne]).
  assert (EI : set_index n (upd D v true) = set_index n Q) by (unfold set_index; f_equal; apply elems_ext; intros x _; apply EQ).
  rewrite <- EI. apply (C4 D ID v Hv L I). intros x y Hx Hy. apply C; unfold members in *; rewrite <- EQ; assumption.
Qed.

Lemma compute_ok max :
  (forall u v a, In (u, v, a) G -> a <= kInv) -> (2 <= max)%nat -> (max <= S n)%nat ->
  exists T, steiner_compute n max G = Some T /\ Sound T /\ Pairs T /\ Compl max T.
Proof.
  intros Hw H2 Hmax. unfold steiner_compute. destruct (initial_ok Hw) as (S0 & C0 & P0).
  assert (A : forall k m T, (2 <= m)%nat -> (m + k <= S n)%nat -> Sound T -> Pairs T -> Compl m T ->
            exists T', fold_left (dw_size n) (seq m k) (Some T) = Some T' /\ Sound T' /\ Pairs T' /\ Compl (m + k) T').
  { induction k as [|k IH]; intros m T Hm Hk HS HP HC; cbn [seq fold_left].
    - exists T. rewrite Nat.add_0_r. tauto.
    - destruct (size_ok m T Hm ltac:(lia) HS HP HC) as (T' & E & HS' & HP' & HC' & _). rewrite E.
      destruct (IH (S m) T' ltac:(lia) ltac:(lia) HS' HP' HC') as (T2 & E2 & R). exists T2. split; [exact E2|]. replace (m + S k)%nat with (S m + k)%nat by lia. exact R. }
  destruct (A (max - 2)%nat 2%nat _ ltac:(lia) ltac:(lia) S0 P0 C0) as (T & E & R). exists T. split; [exact E|]. replace (2 + (max - 2))%nat with max in R by lia. exact R.
Qed.
End DW.

(** ** C50: after precomputation, the table holds the weight of a minimum Steiner tree for every block set with at most [max] blocks.
    Hypotheses: at least two blocks, the edges of some connected spanning edge set weigh less than kInvalidDistance in total (so that all
    Steiner trees do), no edge is heavier than kInvalidDistance; 2 <= max <= k + 1. *)
Theorem C50_precomputed_steiner_trees n G max :
  (2 <= n)%nat -> target n G -> (forall u v a, In (u, v, a) G -> a <= kInv) ->
  (exists L, incl L G /\ connects L (fun x => (x < n)%nat) /\ weight L < kInv) ->
  (2 <= max)%nat -> (max <= S n)%nat ->
  exists T, steiner_compute n max G = Some T /\
    (forall u v, (u < n)%nat -> (v < n)%nat -> is_dist G u v (tg_distance T n u v)) /\
    (forall S, within n S -> (exists x, S x = true) -> (length (filter S (seq 0 n)) <= max)%nat ->
       (set_index n S < n ^ max)%nat /\ is_steiner G (members S) (T (set_index n S))).
Proof.
  intros Hn TG Hw (L0 & I0 & C0 & W0) H2 Hmax.
  assert (Hconn : forall u v, (u < n)%nat -> (v < n)%nat -> exists w, walk G u v w /\ w < kInv).
  { intros u v Hu Hv. destruct (joined_walk n G TG L0 u v I0 (C0 u v Hu Hv)) as (b & Wk & Hb). exists b. split; [exact Wk|lia]. }
  destruct (compute_ok n G Hn TG Hconn max Hw H2 Hmax) as (T & E & HS & HP & HC). exists T. split; [exact E|]. split; [exact HP|].
  intros S W NS Hc. split; [apply C43_index_in_table; assumption|]. fold (elems n S) in Hc. fold (card n S) in Hc.
  assert (M : forall L, incl L G -> connects L (members S) -> T (set_index n S) <= weight L) by (intros L I C; apply HC; assumption).
  split; [|exact M]. destruct (HS S W NS) as [B [K|(L & I & C & Hle)]].
  - exfalso. specialize (M L0 I0). assert (connects L0 (members S)) by (intros x y Hx Hy; apply C0; apply W; assumption). specialize (M H). lia.
  - exists L. split; [exact I|]. split; [exact C|]. specialize (M L I C). lia.
Qed.

(** Non-vacuity: a star with centre 0 and leaves 1, 2, 3 (edge weight 1) and expensive direct edges between the leaves (weight 2):
    the optimal tree of {1,2,3} uses the non-terminal 0 and weighs 3. *)
Definition starG : list arc :=
  [(0%nat,1%nat,1); (0%nat,2%nat,1); (0%nat,3%nat,1); (1%nat,0%nat,1); (1%nat,2%nat,2); (2%nat,0%nat,1); (2%nat,1%nat,2); (3%nat,0%nat,1)].
Lemma starG_target : target 4 starG.
Proof.
  split; unfold starG; cbn [In]; intros; repeat match goal with H : _ \/ _ |- _ => destruct H | H : (_, _) = (_, _) |- _ => inversion H; clear H; subst | H : False |- _ => destruct H end;
    try lia; try tauto; try congruence.
Qed.
Lemma starG_spans : exists L, incl L starG /\ connects L (fun x => (x < 4)%nat) /\ weight L < kInv.
Proof.
  exists [(0%nat,1%nat,1); (0%nat,2%nat,1); (0%nat,3%nat,1)]. split; [|split; [|vm_compute; reflexivity]].
  - intros e He. cbn [In] in He. unfold starG. cbn [In]. tauto.
  - apply (connects_hub _ _ 0%nat). intros x Hx.
    assert (x = 0 \/ x = 1 \/ x = 2 \/ x = 3)%nat as [->|[->|[->| ->]]] by lia; [constructor| | |];
      (eapply joined_edge; left; cbn [In]; eauto).
Qed.
Example ex_C50 : option_map (fun T => T (set_index 4 (fun x => (1 <=? x) && (x <=? 3))%nat)) (steiner_compute 4 3 starG) = Some 3.
Proof. vm_compute. reflexivity. Qed.
