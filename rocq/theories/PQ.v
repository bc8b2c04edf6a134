(** PQ.v - the addressable d-ary heap (mt-kahypar/datastructures/priority_queue.h:44-330).
    Several heaps may share one array of handles (as the vertex PQs of an FM search do, fm_commons.h:255-268), provided an
    element is in at most one of them.
    Simplifications: keys are integers with comp = std::less; positions are unbounded naturals (the code uses 32 bits). *)
From Verif Require Import Base.

Section Heap.
Variable a : nat.               (* arity *)
Variable INVALID_POS : nat.     (* invalid_position, 2^32 - 1 (:39); its value is irrelevant for correctness *)
Hypothesis a_ge2 : (2 <= a)%nat.

Definition elt := (Z * nat)%type.             (* HeapElement: key, id *)
Notation key := (@fst Z nat).
Notation eid := (@snd Z nat).
(** parent, firstChild, :214-220 *)
Definition parent (p : nat) : nat := ((p - 1) / a)%nat.
Definition firstChild (p : nat) : nat := (p * a + 1)%nat.

(** A heap: elements heap[0..n) ; handles are outside. *)
Record heap := mkHp { hp : nat -> elt; hn : nat }.

(** siftUp, :222-241; [fuel] bounds the number of iterations ([p] suffices). *)
Fixpoint sift_up (fuel : nat) (x : elt) (p : nat) (h : nat -> elt) (pos : nat -> nat) : (nat -> elt) * (nat -> nat) :=
  let done := (upd h p x, upd pos (eid x) p) in
  match fuel with
  | O => done
  | S f => let q := parent p in
           if (0 <? p)%nat && (key (h q) <? key x)
           then sift_up f x q (upd h p (h q)) (upd pos (eid (h q)) p) else done
  end.
(** :253-264 (arity > 2) and :271-281 (arity 2): the child with the largest key *)
Definition largest_child (h : nat -> elt) (n p : nat) : nat :=
  let first := firstChild p in
  if (2 <? a)%nat then
    fold_left (fun best c => if key (h best) <? key (h c) then c else best)
              (seq (first + 1) (Nat.min n (firstChild (p + 1)) - (first + 1))) first
  else let second := Nat.min (first + 1) (n - 1) in
       if key (h first) <? key (h second) then second else first.
(** siftDown, :243-297: the loop; returns the final position of the hole *)
Fixpoint sift_down_loop (fuel : nat) (n : nat) (x : elt) (p : nat) (h : nat -> elt) (pos : nat -> nat)
  : nat * (nat -> elt) * (nat -> nat) :=
  match fuel with
  | O => (p, h, pos)
  | S f => let first := firstChild p in
           if (first <? n)%nat && negb (Nat.eqb first p) then
             let m := largest_child h n p in
             if (key (h m) <? key x) || (key (h m) =? key x) then (p, h, pos)
             else sift_down_loop f n x m (upd h p (h m)) (upd pos (eid (h m)) p)
           else (p, h, pos)
  end.
Definition sift_down (n : nat) (p : nat) (h : nat -> elt) (pos : nat -> nat) : (nat -> elt) * (nat -> nat) :=
  let x := h p in
  let '(p', h', pos') := sift_down_loop n n x p h pos in
  if Nat.eqb p' p then (h', pos') else (upd h' p' x, upd pos' (eid x) p').

(** contains, :163-166 *)
Definition contains (H : heap) (pos : nat -> nat) (e : nat) : bool :=
  (pos e <? hn H)%nat && Nat.eqb (eid (hp H (pos e))) e.
(** getKey, :149-152 *)
Definition getKey (H : heap) (pos : nat -> nat) (e : nat) : Z := key (hp H (pos e)).
Definition top (H : heap) : nat := eid (hp H 0).
Definition topKey (H : heap) : Z := key (hp H 0).
Definition empty (H : heap) : bool := Nat.eqb (hn H) 0.

(** insert, :82-89 *)
Definition insert (H : heap) (pos : nat -> nat) (e : nat) (k : Z) : heap * (nat -> nat) :=
  let p := hn H in
  let '(h', pos') := sift_up p (k, e) p (upd (hp H) p (k, e)) (upd pos e p) in (mkHp h' (S (hn H)), pos').
(** deleteTop, :71-80 *)
Definition deleteTop (H : heap) (pos : nat -> nat) : heap * (nat -> nat) :=
  let last := hp H (hn H - 1) in
  let pos1 := upd (upd pos (eid (hp H 0)) INVALID_POS) (eid last) 0%nat in
  let n' := (hn H - 1)%nat in
  if Nat.eqb n' 0 then (mkHp (upd (hp H) 0 last) n', pos1)
  else let '(h', pos') := sift_down n' 0 (upd (hp H) 0%nat last) pos1 in (mkHp h' n', pos').
(** remove, :91-109 *)
Definition remove (H : heap) (pos : nat -> nat) (e : nat) : heap * (nat -> nat) :=
  let p := pos e in
  let last := hp H (hn H - 1) in
  let removedKey := key (hp H p) in
  let n' := (hn H - 1)%nat in
  let h1 := upd (hp H) p last in
  let pos1 := upd (upd pos (eid last) p) e INVALID_POS in
  if Nat.eqb p n' then (mkHp h1 n', pos1)
  else if removedKey <? key last
       then let '(h', pos') := sift_up p last p h1 pos1 in (mkHp h' n', pos')
       else let '(h', pos') := sift_down n' p h1 pos1 in (mkHp h' n', pos').
(** increaseKey / decreaseKey / adjustKey, :112-147 *)
Definition adjustKey (H : heap) (pos : nat -> nat) (e : nat) (k : Z) : heap * (nat -> nat) :=
  let p := pos e in
  if key (hp H p) <? k then let '(h', pos') := sift_up p (k, eid (hp H p)) p (upd (hp H) p (k, eid (hp H p))) pos in (mkHp h' (hn H), pos')
  else if k <? key (hp H p) then let '(h', pos') := sift_down (hn H) p (upd (hp H) p (k, eid (hp H p))) pos in (mkHp h' (hn H), pos')
  else (H, pos).
(** insertOrAdjustKey, :154-160 *)
Definition insertOrAdjustKey (H : heap) (pos : nat -> nat) (e : nat) (k : Z) : heap * (nat -> nat) :=
  if contains H pos e then adjustKey H pos e k else insert H pos e k.
(** clear, :162-164 *)
Definition clear (H : heap) : heap := mkHp (hp H) 0.

(** *** Invariant *)
Definition holds (h : nat -> elt) (n e : nat) (k : Z) : Prop := exists i, (i < n)%nat /\ h i = (k, e).
Record hinv (h : nat -> elt) (n : nat) (pos : nat -> nat) : Prop := {
  hv_pos : forall i, (i < n)%nat -> pos (eid (h i)) = i;
  hv_heap : forall i, (0 < i < n)%nat -> key (h i) <= key (h (parent i))
}.

Lemma parent_lt p : (0 < p)%nat -> (parent p < p)%nat.
Proof. intros H. unfold parent. apply Nat.le_lt_trans with (p - 1)%nat; [|lia]. apply Nat.div_le_upper_bound; nia. Qed.
Lemma parent_child p c : (0 < c)%nat -> (parent c = p <-> (firstChild p <= c < firstChild (p + 1))%nat).
Proof.
  intros Hc. unfold parent, firstChild. split.
  - intros <-. pose proof (Nat.div_mod (c - 1) a ltac:(lia)) as E. pose proof (Nat.mod_upper_bound (c - 1) a ltac:(lia)). nia.
  - intros [H1 H2]. symmetry. apply (Nat.div_unique (c - 1) a p (c - 1 - p * a)%nat); nia.
Qed.
Lemma firstChild_gt p : (p < firstChild p)%nat. Proof. unfold firstChild. nia. Qed.

Lemma max_child_fold (h : nat -> elt) l : forall b0,
  let b := fold_left (fun best c => if key (h best) <? key (h c) then c else best) l b0 in
  (b = b0 \/ In b l) /\ key (h b0) <= key (h b) /\ forall c, In c l -> key (h c) <= key (h b).
Proof.
  induction l as [|c l IH]; intros b0; [cbn; split; [left; reflexivity|split; [lia|intros c []]]|].
  cbn [fold_left]. destruct (Z.ltb_spec (key (h b0)) (key (h c))) as [L|L].
  - destruct (IH c) as (A & B & C). cbv zeta. split; [|split].
    + destruct A as [->|A]; [right; left; reflexivity|right; right; exact A].
    + lia.
    + intros d [<-|Hd]; [exact B|apply C; exact Hd].
  - destruct (IH b0) as (A & B & C). cbv zeta. split; [|split].
    + destruct A as [->|A]; [left; reflexivity|right; right; exact A].
    + exact B.
    + intros d [<-|Hd]; [lia|apply C; exact Hd].
Qed.
Lemma largest_child_spec h n p : (firstChild p < n)%nat ->
  let m := largest_child h n p in
  (0 < m < n)%nat /\ parent m = p /\ forall c, (0 < c < n)%nat -> parent c = p -> key (h c) <= key (h m).
Proof.
  intros Hf. pose proof (firstChild_gt p) as Hg. cbv zeta. unfold largest_child. destruct (Nat.ltb_spec 2 a) as [L|L].
  - set (l := seq _ _). destruct (max_child_fold h l (firstChild p)) as (A & B & C). cbv zeta in A, B, C.
    set (m := fold_left _ l _) in *.
    assert (Hm : (firstChild p <= m < Nat.min n (firstChild (p + 1)))%nat).
    { destruct A as [->|A]; [unfold firstChild in *; nia|]. unfold l in A. apply in_seq in A. lia. }
    split; [lia|]. split; [apply parent_child; lia|].
    intros c Hc Hp. apply parent_child in Hp; [|lia].
    destruct (Nat.eq_dec c (firstChild p)) as [->|Hne]; [exact B|]. apply C. unfold l. apply in_seq. lia.
  - assert (a = 2%nat) by lia.
    assert (Hch : forall c, (0 < c < n)%nat -> parent c = p -> c = firstChild p \/ (c = firstChild p + 1)%nat).
    { intros c Hc Hp. apply parent_child in Hp; [|lia]. unfold firstChild in *. nia. }
    assert (Hp1 : parent (firstChild p) = p) by (apply parent_child; unfold firstChild; nia).
    assert (Hp2 : parent (firstChild p + 1)%nat = p) by (apply parent_child; unfold firstChild; nia).
    destruct (Z.ltb_spec (key (h (firstChild p))) (key (h (Nat.min (firstChild p + 1) (n - 1))))) as [L1|L1].
    + assert (E : Nat.min (firstChild p + 1) (n - 1) = (firstChild p + 1)%nat).
      { destruct (Nat.le_gt_cases (firstChild p + 1) (n - 1)); [lia|].
        exfalso. replace (Nat.min (firstChild p + 1) (n - 1)) with (firstChild p) in L1 by lia. lia. }
      rewrite E in *. split; [|split; [exact Hp2|]].
      * destruct (Nat.le_gt_cases (firstChild p + 1) (n - 1)); [lia|]. lia.
      * intros c Hc Hp. destruct (Hch c Hc Hp) as [-> | ->]; lia.
    + split; [lia|split; [exact Hp1|]]. intros c Hc Hp. destruct (Hch c Hc Hp) as [-> | ->]; [lia|].
      replace (Nat.min (firstChild p + 1) (n - 1)) with (firstChild p + 1)%nat in L1 by lia. lia.
Qed.

(** Moving the element at q into the hole p and x into q is a permutation. *)
Lemma holds_swap h n p q x e k : (p < n)%nat -> (q < n)%nat -> p <> q ->
  (holds (upd (upd h p (h q)) q x) n e k <-> holds (upd h p x) n e k).
Proof.
  intros Hp Hq Hpq. unfold holds. split; intros (i & Hi & E).
  - destruct (Nat.eq_dec i q) as [->|Hiq].
    + rewrite upd_same in E. exists p. split; [exact Hp|]. rewrite upd_same. exact E.
    + rewrite upd_other in E by exact Hiq. destruct (Nat.eq_dec i p) as [->|Hip].
      * rewrite upd_same in E. exists q. split; [exact Hq|]. rewrite upd_other by congruence. exact E.
      * rewrite upd_other in E by exact Hip. exists i. split; [exact Hi|]. rewrite upd_other by exact Hip. exact E.
  - destruct (Nat.eq_dec i p) as [->|Hip].
    + rewrite upd_same in E. exists q. split; [exact Hq|]. rewrite upd_same. exact E.
    + rewrite upd_other in E by exact Hip. destruct (Nat.eq_dec i q) as [->|Hiq].
      * exists p. split; [exact Hp|]. rewrite upd_other by exact Hpq. rewrite upd_same. exact E.
      * exists i. split; [exact Hi|]. rewrite !upd_other by assumption. exact E.
Qed.

(** State while an element x is "in hand" and position p is a hole. *)
Record hole (h : nat -> elt) (n : nat) (pos : nat -> nat) (p : nat) (x : elt) : Prop := {
  ho_p : (p < n)%nat;
  ho_pos : forall i, (i < n)%nat -> i <> p -> pos (eid (h i)) = i;
  ho_id : forall i, (i < n)%nat -> i <> p -> eid (h i) <> eid x;
  ho_heap : forall i, (0 < i < n)%nat -> i <> p -> parent i <> p -> key (h i) <= key (h (parent i));
  ho_mid : forall c, (0 < c < n)%nat -> parent c = p -> (0 < p)%nat -> key (h c) <= key (h (parent p))
}.
Definition frame (h : nat -> elt) (n p : nat) (x : elt) (pos pos' : nat -> nat) : Prop :=
  forall e, e <> eid x -> (forall i, (i < n)%nat -> i <> p -> eid (h i) <> e) -> pos' e = pos e.

Lemma place h n pos p x : hole h n pos p x ->
  (forall c, (0 < c < n)%nat -> parent c = p -> key (h c) <= key x) ->
  ((0 < p)%nat -> key x <= key (h (parent p))) ->
  hinv (upd h p x) n (upd pos (eid x) p).
Proof.
  intros [B1 B2 B3 B4 B5] Hc Hu. constructor.
  - intros i Hi. destruct (Nat.eq_dec i p) as [->|Hip]; [rewrite !upd_same; reflexivity|].
    rewrite (upd_other _ p) by exact Hip. rewrite upd_other by (apply B3; assumption). apply B2; assumption.
  - intros i Hi. destruct (Nat.eq_dec i p) as [->|Hip].
    + rewrite upd_same, upd_other by (pose proof (parent_lt p); lia). apply Hu. lia.
    + rewrite (upd_other _ p i x) by exact Hip. destruct (Nat.eq_dec (parent i) p) as [E|E].
      * rewrite E, upd_same. apply Hc; assumption.
      * rewrite upd_other by exact E. apply B4; assumption.
Qed.

Lemma move_hole h n pos p q x : hole h n pos p x -> (q < n)%nat -> p <> q ->
  (forall i, (i < n)%nat -> i <> q -> upd pos (eid (h q)) p (eid (upd h p (h q) i)) = i) /\
  (forall i, (i < n)%nat -> i <> q -> eid (upd h p (h q) i) <> eid x) /\
  (forall pos', frame (upd h p (h q)) n q x (upd pos (eid (h q)) p) pos' -> frame h n p x pos pos').
Proof.
  intros [B1 B2 B3 B4 B5] Hq Hpq. split; [|split].
  - intros i Hi Hiq. destruct (Nat.eq_dec i p) as [->|Hip]; [rewrite !upd_same; reflexivity|].
    rewrite (upd_other h) by exact Hip. rewrite upd_other; [apply B2; assumption|].
    intros E. pose proof (B2 i Hi Hip) as E1. rewrite E, B2 in E1 by congruence. congruence.
  - intros i Hi Hiq. unfold upd. destruct (Nat.eqb_spec i p) as [->|Hip]; apply B3; try assumption. congruence.
  - intros pos' F e He Hn. rewrite F; [|exact He|].
    + rewrite upd_other; [reflexivity|]. intros E. apply (Hn q Hq); [congruence|]. symmetry. exact E.
    + intros i Hi Hiq. unfold upd. destruct (Nat.eqb_spec i p) as [->|Hip].
      * apply Hn; [exact Hq|congruence].
      * apply Hn; assumption.
Qed.

Lemma sift_up_spec fuel : forall x p h pos n, (p <= fuel)%nat -> hole h n pos p x ->
  (forall c, (0 < c < n)%nat -> parent c = p -> key (h c) <= key x) ->
  let '(h', pos') := sift_up fuel x p h pos in
  hinv h' n pos' /\ (forall e k, holds h' n e k <-> holds (upd h p x) n e k) /\ frame h n p x pos pos'.
Proof.
  assert (Fin : forall x p h pos n, hole h n pos p x ->
     (forall c, (0 < c < n)%nat -> parent c = p -> key (h c) <= key x) -> ((0 < p)%nat -> key x <= key (h (parent p))) ->
     hinv (upd h p x) n (upd pos (eid x) p) /\ (forall e k, holds (upd h p x) n e k <-> holds (upd h p x) n e k) /\
     frame h n p x pos (upd pos (eid x) p)).
  { intros x p h pos n Ho Hc Hu. split; [apply place; assumption|split; [reflexivity|]]. intros e He _. apply upd_other. exact He. }
  induction fuel as [|f IH]; intros x p h pos n Hf Ho Hc; cbn [sift_up].
  - apply Fin; [assumption|assumption|lia].
  - destruct ((0 <? p)%nat && (key (h (parent p)) <? key x)) eqn:G.
    + apply andb_true_iff in G. destruct G as [G1 G2]. apply Nat.ltb_lt in G1. apply Z.ltb_lt in G2.
      pose proof (parent_lt p G1) as Hpl. pose proof Ho as [B1 B2 B3 B4 B5].
      set (q := parent p) in *.
      destruct (move_hole h n pos p q x Ho ltac:(lia) ltac:(lia)) as (M1 & M2 & M3).
      assert (Hq_up : (0 < q)%nat -> key (h q) <= key (h (parent q))).
      { intros Hq. pose proof (parent_lt q Hq). apply B4; lia. }
      assert (Hsib : forall c, (0 < c < n)%nat -> parent c = q -> c <> p -> key (h c) <= key (h q)).
      { intros c Hcn Hcq Hcp. rewrite <- Hcq at 1. apply B4; lia. }
      specialize (IH x q (upd h p (h q)) (upd pos (eid (h q)) p) n ltac:(lia)).
      destruct (sift_up f x q _ _) as [h' pos'].
      destruct IH as (I1 & I2 & I3).
      * constructor; [lia|exact M1|exact M2| |].
        -- intros i Hi Hiq Hpiq. destruct (Nat.eq_dec i p) as [->|Hip]; [exfalso; apply Hpiq; reflexivity|].
           rewrite (upd_other h p i) by exact Hip. destruct (Nat.eq_dec (parent i) p) as [E|E].
           ++ rewrite E, upd_same. apply B5; assumption.
           ++ rewrite upd_other by exact E. apply B4; assumption.
        -- intros c Hcn Hcq Hq. pose proof (parent_lt q Hq).
           rewrite (upd_other h p (parent q)) by lia. unfold upd. destruct (Nat.eqb_spec c p) as [->|Hcp]; [apply Hq_up; exact Hq|].
           pose proof (Hsib c Hcn Hcq Hcp). specialize (Hq_up Hq). lia.
      * intros c Hcn Hcq. unfold upd. destruct (Nat.eqb_spec c p) as [->|Hcp]; [lia|].
        pose proof (Hsib c Hcn Hcq Hcp). lia.
      * split; [exact I1|split; [|apply M3; exact I3]]. intros e k. rewrite I2. apply holds_swap; lia.
    + apply Fin; [assumption|assumption|]. intros Hp. apply andb_false_iff in G. destruct G as [G|G].
      * apply Nat.ltb_ge in G. lia.
      * apply Z.ltb_ge in G. exact G.
Qed.

Lemma sift_down_loop_spec fuel : forall x p h pos n, (n <= fuel + p)%nat -> hole h n pos p x ->
  ((0 < p)%nat -> key x <= key (h (parent p))) ->
  let '(p', h', pos') := sift_down_loop fuel n x p h pos in
  hinv (upd h' p' x) n (upd pos' (eid x) p') /\ (forall e k, holds (upd h' p' x) n e k <-> holds (upd h p x) n e k) /\
  frame h n p x pos pos' /\ (p <= p')%nat /\ (p' = p -> h' = h /\ pos' = pos).
Proof.
  assert (Fin : forall x p h pos n, hole h n pos p x ->
     (forall c, (0 < c < n)%nat -> parent c = p -> key (h c) <= key x) -> ((0 < p)%nat -> key x <= key (h (parent p))) ->
     hinv (upd h p x) n (upd pos (eid x) p) /\ (forall e k, holds (upd h p x) n e k <-> holds (upd h p x) n e k) /\
     frame h n p x pos pos /\ (p <= p)%nat /\ (p = p -> h = h /\ pos = pos)).
  { intros x p h pos n Ho Hc Hu. split; [apply place; assumption|split; [reflexivity|]]. split; [|split; [lia|auto]]. intros e He _. reflexivity. }
  induction fuel as [|f IH]; intros x p h pos n Hf Ho Hu; cbn [sift_down_loop].
  - pose proof (ho_p _ _ _ _ _ Ho). lia.
  - destruct ((firstChild p <? n)%nat && negb (Nat.eqb (firstChild p) p)) eqn:G.
    + apply andb_true_iff in G. destruct G as [G1 _]. apply Nat.ltb_lt in G1.
      destruct (largest_child_spec h n p G1) as (L1 & L2 & L3). cbv zeta in L1, L2, L3. set (m := largest_child h n p) in *.
      destruct ((key (h m) <? key x) || (key (h m) =? key x)) eqn:G2.
      * apply Fin; [assumption| |assumption]. intros c Hcn Hcp. specialize (L3 c Hcn Hcp). lia.
      * apply orb_false_iff in G2. destruct G2 as [G2 G3]. apply Z.ltb_ge in G2. apply Z.eqb_neq in G3.
        pose proof (parent_lt m ltac:(lia)) as Hpm. rewrite L2 in Hpm.
        pose proof Ho as [B1 B2 B3 B4 B5].
        destruct (move_hole h n pos p m x Ho ltac:(lia) ltac:(lia)) as (M1 & M2 & M3).
        specialize (IH x m (upd h p (h m)) (upd pos (eid (h m)) p) n ltac:(lia)).
        destruct (sift_down_loop f n x m _ _) as [[p' h'] pos'].
        destruct IH as (I1 & I2 & I3 & I4 & I5).
        -- constructor; [lia|exact M1|exact M2| |].
           ++ intros i Hi Him Hpim. destruct (Nat.eq_dec i p) as [->|Hip].
              ** rewrite upd_same, upd_other by (pose proof (parent_lt p); lia). apply B5; [lia|exact L2|lia].
              ** rewrite (upd_other h p i) by exact Hip. destruct (Nat.eq_dec (parent i) p) as [E|E].
                 --- rewrite E, upd_same. apply L3; assumption.
                 --- rewrite upd_other by exact E. apply B4; assumption.
           ++ intros c Hcn Hcm _. rewrite L2, upd_same. pose proof (parent_lt c ltac:(lia)).
              rewrite upd_other by lia. rewrite <- Hcm. apply B4; lia.
        -- intros _. rewrite L2, upd_same. lia.
        -- split; [exact I1|split; [|split; [apply M3; exact I3|split; [lia|intros E; lia]]]].
           intros e k. rewrite I2. apply holds_swap; lia.
    + apply Fin; [assumption| |assumption]. intros c Hcn Hcp. exfalso.
      apply andb_false_iff in G. destruct G as [G|G].
      * apply Nat.ltb_ge in G. apply parent_child in Hcp; lia.
      * apply negb_false_iff, Nat.eqb_eq in G. pose proof (firstChild_gt p). lia.
Qed.

Lemma sift_down_spec n p h pos : hole h n pos p (h p) -> pos (eid (h p)) = p ->
  ((0 < p)%nat -> key (h p) <= key (h (parent p))) ->
  let '(h', pos') := sift_down n p h pos in
  hinv h' n pos' /\ (forall e k, holds h' n e k <-> holds h n e k) /\
  frame h n p (h p) pos pos'.
Proof.
  intros Ho Hp Hu. unfold sift_down.
  pose proof (sift_down_loop_spec n (h p) p h pos n ltac:(lia) Ho Hu) as S.
  destruct (sift_down_loop n n (h p) p h pos) as [[p' h'] pos']. destruct S as (I1 & I2 & I3 & I4 & I5).
  assert (Hid : forall e k, holds (upd h p (h p)) n e k <-> holds h n e k).
  { intros e k. unfold holds. split; intros (i & Hi & E); exists i; (split; [exact Hi|]); revert E; unfold upd; destruct (Nat.eqb_spec i p) as [->|]; intros E; exact E. }
  destruct (Nat.eqb_spec p' p) as [->|Hne].
  - destruct (I5 eq_refl) as [-> ->]. split; [|split; [reflexivity|exact I3]].
    destruct I1 as [J1 J2]. constructor.
    + intros i Hi. destruct (Nat.eq_dec i p) as [->|Hip]; [exact Hp|]. apply (ho_pos _ _ _ _ _ Ho i Hi Hip).
    + intros i Hi. specialize (J2 i Hi).
      assert (U : forall j, upd h p (h p) j = h j) by (intros j; unfold upd; destruct (Nat.eqb_spec j p) as [->|]; reflexivity).
      rewrite !U in J2. exact J2.
  - split; [exact I1|split].
    + intros e k. rewrite I2. apply Hid.
    + intros e He Hn. rewrite upd_other by exact He. apply I3; assumption.
Qed.

(** *** Operations against the abstract contents (id -> key) *)
Definition represents (H : heap) (pos : nat -> nat) (M : nat -> option Z) : Prop :=
  hinv (hp H) (hn H) pos /\ forall e k, M e = Some k <-> holds (hp H) (hn H) e k.

Lemma elt_eta (x : elt) k e : x = (k, e) -> eid x = e /\ key x = k.
Proof. intros ->. split; reflexivity. Qed.

Lemma hinv_hole h n n2 pos pos' p x : hinv h n pos -> (n2 <= n)%nat -> (p < n2)%nat ->
  (forall i, (i < n2)%nat -> i <> p -> eid (h i) <> eid x) ->
  (forall i, (i < n2)%nat -> i <> p -> pos' (eid (h i)) = i) -> hole (upd h p x) n2 pos' p x.
Proof.
  intros [J1 J2] Hn Hp Hid Hpos. constructor; [exact Hp| | | |].
  - intros i Hi Hip. rewrite upd_other by exact Hip. apply Hpos; assumption.
  - intros i Hi Hip. rewrite upd_other by exact Hip. apply Hid; assumption.
  - intros i Hi Hip Hpip. rewrite !upd_other by assumption. apply J2. lia.
  - intros c Hc Hcp Hp0. pose proof (parent_lt p Hp0). pose proof (parent_lt c ltac:(lia)). rewrite !upd_other by lia.
    pose proof (J2 c ltac:(lia)) as A. rewrite Hcp in A. pose proof (J2 p ltac:(lia)). lia.
Qed.

Lemma rep_in H pos M i : represents H pos M -> (i < hn H)%nat -> M (eid (hp H i)) = Some (key (hp H i)).
Proof. intros [_ R] Hi. apply R. exists i. split; [exact Hi|]. destruct (hp H i); reflexivity. Qed.
Lemma rep_pos H pos M e k : represents H pos M -> M e = Some k ->
  (pos e < hn H)%nat /\ hp H (pos e) = (k, e).
Proof.
  intros [I R] E. apply R in E. destruct E as (i & Hi & Ei). pose proof (hv_pos _ _ _ I i Hi) as P.
  rewrite Ei in P. cbn [snd] in P. rewrite P. split; [exact Hi|exact Ei].
Qed.
Lemma rep_inj H pos M i j : represents H pos M -> (i < hn H)%nat -> (j < hn H)%nat -> eid (hp H i) = eid (hp H j) -> i = j.
Proof. intros [I _] Hi Hj E. rewrite <- (hv_pos _ _ _ I i Hi), <- (hv_pos _ _ _ I j Hj), E. reflexivity. Qed.

Lemma contains_spec H pos M e : represents H pos M -> contains H pos e = true <-> M e <> None.
Proof.
  intros R. unfold contains. rewrite andb_true_iff, Nat.ltb_lt, Nat.eqb_eq. split.
  - intros [L E]. rewrite <- E, (rep_in H pos M _ R L). discriminate.
  - intros Hne. destruct (M e) as [k|] eqn:E; [|congruence]. destruct (rep_pos H pos M e k R E) as [A B].
    split; [exact A|]. rewrite B. reflexivity.
Qed.
Lemma getKey_spec H pos M e k : represents H pos M -> M e = Some k -> getKey H pos e = k.
Proof. intros R E. unfold getKey. destruct (rep_pos H pos M e k R E) as [_ ->]. reflexivity. Qed.
Lemma empty_spec H pos M : represents H pos M -> empty H = true <-> forall e, M e = None.
Proof.
  intros R. unfold empty. rewrite Nat.eqb_eq. split.
  - intros Hz e. destruct (M e) as [k|] eqn:E; [|reflexivity]. destruct (rep_pos H pos M e k R E). lia.
  - intros Hn. destruct (Nat.eq_dec (hn H) 0) as [E|E]; [exact E|]. pose proof (rep_in H pos M 0 R ltac:(lia)) as X. rewrite Hn in X. discriminate.
Qed.
Lemma root_max H pos M : represents H pos M -> forall i, (i < hn H)%nat -> key (hp H i) <= key (hp H 0).
Proof.
  intros [I _] i. induction i as [i IH] using lt_wf_ind. intros Hi. destruct (Nat.eq_dec i 0) as [->|Hi0]; [lia|].
  pose proof (parent_lt i ltac:(lia)) as L. pose proof (hv_heap _ _ _ I i ltac:(lia)). specialize (IH (parent i) L ltac:(lia)). lia.
Qed.
Lemma top_spec H pos M : represents H pos M -> (hn H <> 0)%nat ->
  M (top H) = Some (topKey H) /\ forall e k, M e = Some k -> k <= topKey H.
Proof.
  intros R Hn. split; [apply (rep_in H pos M 0 R); lia|]. intros e k E. destruct (rep_pos H pos M e k R E) as [A B].
  pose proof (root_max H pos M R (pos e) A) as X. rewrite B in X. exact X.
Qed.

Definition pos_frame (M : nat -> option Z) (e0 : option nat) (pos pos' : nat -> nat) : Prop :=
  forall e, M e = None -> e0 <> Some e -> pos' e = pos e.

Lemma insert_spec H pos M e k : represents H pos M -> M e = None ->
  let '(H', pos') := insert H pos e k in represents H' pos' (upd M e (Some k)) /\ pos_frame M (Some e) pos pos'.
Proof.
  intros R He. unfold insert. set (n := hn H). set (x := (k, e)).
  assert (Nid : forall i, (i < n)%nat -> eid (hp H i) <> e).
  { intros i Hi E. pose proof (rep_in H pos M i R Hi) as X. rewrite E, He in X. discriminate. }
  pose proof R as [[J1 J2] RM].
  assert (Ho : hole (upd (hp H) n x) (S n) (upd pos e n) n x).
  { constructor; [lia| | | |].
    - intros i Hi Hin. rewrite (upd_other (hp H)) by exact Hin. rewrite upd_other by (apply Nid; lia). apply J1. fold n. lia.
    - intros i Hi Hin. rewrite upd_other by exact Hin. apply Nid. lia.
    - intros i Hi Hin Hpi. rewrite !upd_other by assumption. apply J2. fold n. lia.
    - intros c Hc Hcp. pose proof (parent_lt c ltac:(lia)). lia. }
  pose proof (sift_up_spec n x n (upd (hp H) n x) (upd pos e n) (S n) ltac:(lia) Ho) as S.
  destruct (sift_up n x n _ _) as [h' pos']. destruct S as (I1 & I2 & I3).
  { intros c Hc Hcp. pose proof (parent_lt c ltac:(lia)). lia. }
  split; [split; [exact I1|]|]; cbn [hp hn].
  - intros e' k'. rewrite I2. unfold holds. split.
    + unfold upd at 1. destruct (Nat.eqb_spec e' e) as [->|Hne].
      * intros E. injection E as <-. exists n. split; [lia|]. rewrite upd_same. reflexivity.
      * intros E. apply RM in E. destruct E as (i & Hi & Ei). fold n in Hi. exists i. split; [lia|]. rewrite !upd_other by lia. exact Ei.
    + intros (i & Hi & Ei). destruct (Nat.eq_dec i n) as [->|Hin].
      * rewrite upd_same in Ei. unfold x in Ei. injection Ei as <- <-. apply upd_same.
      * rewrite !upd_other in Ei by exact Hin. rewrite upd_other; [apply RM; exists i; split; [fold n; lia|exact Ei]|].
        intros ->. apply (Nid i ltac:(lia)). rewrite Ei. reflexivity.
  - intros e' He' Hne. rewrite I3.
    + apply upd_other. congruence.
    + cbn [snd]. unfold x. cbn [snd]. congruence.
    + intros i Hi Hin. rewrite upd_other by exact Hin. intros E. pose proof (rep_in H pos M i R ltac:(fold n; lia)) as X. rewrite E, He' in X. discriminate.
Qed.

(** Contents after the element at position p has been overwritten by the last one. *)
Lemma holds_drop_last H pos M p : represents H pos M -> (p < hn H - 1)%nat ->
  forall e k, holds (upd (hp H) p (hp H (hn H - 1))) (hn H - 1) e k <-> upd M (eid (hp H p)) None e = Some k.
Proof.
  intros R Hp e k. pose proof R as [_ RM]. unfold holds. split.
  - intros (i & Hi & Ei). destruct (Nat.eq_dec i p) as [->|Hip].
    + rewrite upd_same in Ei. rewrite upd_other.
      * apply RM. exists (hn H - 1)%nat. split; [lia|exact Ei].
      * intros ->. destruct (elt_eta _ _ _ Ei) as [E _]. apply (rep_inj H pos M _ _ R) in E; lia.
    + rewrite upd_other in Ei by exact Hip. rewrite upd_other.
      * apply RM. exists i. split; [lia|exact Ei].
      * intros ->. destruct (elt_eta _ _ _ Ei) as [E _]. apply Hip. apply (rep_inj H pos M _ _ R); [lia|lia|exact E].
  - intros E. unfold upd in E. destruct (Nat.eqb_spec e (eid (hp H p))) as [|Hne]; [discriminate|].
    apply RM in E. destruct E as (i & Hi & Ei). destruct (Nat.eq_dec i (hn H - 1)) as [->|Hil].
    + exists p. split; [exact Hp|]. rewrite upd_same. exact Ei.
    + exists i. split; [lia|]. rewrite upd_other; [exact Ei|]. intros ->. apply Hne. rewrite Ei. reflexivity.
Qed.

Lemma deleteTop_spec H pos M : represents H pos M -> (hn H <> 0)%nat ->
  let '(H', pos') := deleteTop H pos in represents H' pos' (upd M (top H) None) /\ pos_frame M None pos pos'.
Proof.
  intros R Hn. unfold deleteTop. set (n := (hn H - 1)%nat). set (x := hp H n).
  assert (Pf : forall e, M e = None -> e <> eid x /\ e <> eid (hp H 0)).
  { intros e He. split; intros ->; [unfold x in He; rewrite (rep_in H pos M n R) in He by lia|rewrite (rep_in H pos M 0 R) in He by lia]; discriminate. }
  destruct (Nat.eqb_spec n 0) as [E|E].
  - split; [split|]; cbn [hp hn].
    + constructor; intros i Hi; lia.
    + intros e k. split.
      * intros X. exfalso. unfold upd in X. destruct (Nat.eqb_spec e (top H)) as [|Hne]; [discriminate|].
        apply Hne. destruct (rep_pos H pos M e k R X) as [A B]. unfold top. replace (pos e) with 0%nat in B by lia. rewrite B. reflexivity.
      * intros (i & Hi & _). lia.
    + intros e He _. destruct (Pf e He). rewrite !upd_other by assumption. reflexivity.
  - set (pos1 := upd (upd pos (eid (hp H 0)) INVALID_POS) (eid x) 0%nat).
    assert (Hid : forall i, (i < n)%nat -> i <> 0%nat -> eid (hp H i) <> eid x /\ eid (hp H i) <> eid (hp H 0)).
    { intros i Hi Hi0. split; intros X; apply (rep_inj H pos M _ _ R) in X; lia. }
    assert (Ho : hole (upd (hp H) 0%nat x) n pos1 0 x).
    { apply (hinv_hole (hp H) (hn H) n pos); [apply (proj1 R)|lia|lia| |].
      - intros i Hi Hi0. apply Hid; assumption.
      - intros i Hi Hi0. unfold pos1. destruct (Hid i Hi Hi0). rewrite !upd_other by assumption. apply (hv_pos _ _ _ (proj1 R)). lia. }
    pose proof (sift_down_spec n 0 (upd (hp H) 0%nat x) pos1) as S. rewrite upd_same in S.
    specialize (S Ho). destruct (sift_down n 0 _ pos1) as [h' pos'].
    destruct S as (I1 & I2 & I3); [unfold pos1; apply upd_same|lia|].
    split; [split; [exact I1|]|]; cbn [hp hn].
    + intros e k. rewrite I2. symmetry. apply (holds_drop_last H pos M 0 R). lia.
    + intros e He _. destruct (Pf e He). rewrite I3.
      * unfold pos1. rewrite !upd_other by assumption. reflexivity.
      * assumption.
      * intros i Hi Hi0. rewrite upd_other by exact Hi0. intros X. pose proof (rep_in H pos M i R ltac:(lia)) as Y. rewrite X, He in Y. discriminate.
Qed.

Lemma remove_spec H pos M e k : represents H pos M -> M e = Some k ->
  let '(H', pos') := remove H pos e in represents H' pos' (upd M e None) /\ pos_frame M None pos pos'.
Proof.
  intros R He. destruct (rep_pos H pos M e k R He) as [Hp Ep]. unfold remove. set (p := pos e) in *. set (n := (hn H - 1)%nat). set (x := hp H n).
  assert (Eid : eid (hp H p) = e) by (rewrite Ep; reflexivity).
  assert (Pf : forall e', M e' = None -> e' <> eid x /\ e' <> e).
  { intros e' He'. split; intros ->; [unfold x in He'; rewrite (rep_in H pos M n R) in He' by lia|rewrite He in He']; discriminate. }
  destruct (Nat.eqb_spec p n) as [E|E].
  - split; [split|]; cbn [hp hn].
    + destruct (proj1 R) as [J1 J2]. constructor.
      * intros i Hi. rewrite (upd_other (hp H)) by lia. assert (eid (hp H i) <> eid (hp H n)) by (intros X; apply (rep_inj H pos M _ _ R) in X; lia).
        rewrite E in Eid. rewrite !upd_other by (unfold x; congruence). apply J1. lia.
      * intros i Hi. pose proof (parent_lt i ltac:(lia)). rewrite !upd_other by lia. apply J2. lia.
    + intros e' k'. unfold holds. split.
      * intros X. unfold upd in X. destruct (Nat.eqb_spec e' e) as [|Hne]; [discriminate|]. destruct (rep_pos H pos M e' k' R X) as [A B].
        assert (pos e' <> n) by (intros Y; rewrite Y, <- E, Ep in B; congruence).
        exists (pos e'). split; [lia|]. rewrite upd_other by lia. exact B.
      * intros (i & Hi & Ei). rewrite upd_other in Ei by lia. rewrite upd_other.
        -- apply (proj2 R). exists i. split; [lia|exact Ei].
        -- intros ->. destruct (elt_eta _ _ _ Ei) as [X _]. rewrite <- Eid in X. apply (rep_inj H pos M _ _ R) in X; lia.
    + intros e' He' _. destruct (Pf e' He'). rewrite !upd_other by assumption. reflexivity.
  - set (pos1 := upd (upd pos (eid x) p) e INVALID_POS).
    assert (Hid : forall i, (i < n)%nat -> i <> p -> eid (hp H i) <> eid x /\ eid (hp H i) <> e).
    { intros i Hi Hip. rewrite <- Eid. split; intros X; apply (rep_inj H pos M _ _ R) in X; lia. }
    assert (Hxe : eid x <> e).
    { rewrite <- Eid. intros X. apply (rep_inj H pos M _ _ R) in X; lia. }
    assert (Ho : hole (upd (hp H) p x) n pos1 p x).
    { apply (hinv_hole (hp H) (hn H) n pos); [apply (proj1 R)|lia|lia| |].
      - intros i Hi Hip. apply Hid; assumption.
      - intros i Hi Hip. unfold pos1. destruct (Hid i Hi Hip). rewrite !upd_other by assumption. apply (hv_pos _ _ _ (proj1 R)). lia. }
    assert (Hdrop : forall e' k', holds (upd (hp H) p x) n e' k' <-> upd M e None e' = Some k').
    { intros e' k'. rewrite <- Eid. apply (holds_drop_last H pos M p R). lia. }
    assert (Fr : forall pos', frame (upd (hp H) p x) n p x pos1 pos' -> pos_frame M None pos pos').
    { intros pos' F e' He' _. destruct (Pf e' He') as [P1 P2]. rewrite F.
      - unfold pos1. rewrite !upd_other by assumption. reflexivity.
      - exact P1.
      - intros i Hi Hip. rewrite upd_other by exact Hip. intros X. pose proof (rep_in H pos M i R ltac:(lia)) as Y. rewrite X, He' in Y. discriminate. }
    pose proof (proj1 R) as [J1 J2].
    rewrite Ep. cbn [fst]. destruct (Z.ltb_spec k (key x)) as [L|L].
    + pose proof (sift_up_spec p x p (upd (hp H) p x) pos1 n ltac:(lia) Ho) as S.
      destruct (sift_up p x p _ pos1) as [h' pos']. destruct S as (I1 & I2 & I3).
      { intros c Hc Hcp. pose proof (parent_lt c ltac:(lia)). rewrite upd_other by lia. pose proof (J2 c ltac:(lia)) as X. rewrite Hcp, Ep in X. cbn [fst] in X. lia. }
      split; [split; [exact I1|]|apply Fr; exact I3]. cbn [hp hn]. intros e' k'. rewrite I2, <- Hdrop. unfold holds.
      split; intros (i & Hi & Ei); exists i; (split; [exact Hi|]); revert Ei; unfold upd; destruct (Nat.eqb i p); intros Ei; exact Ei.
    + pose proof (sift_down_spec n p (upd (hp H) p x) pos1) as S. rewrite upd_same in S. specialize (S Ho).
      destruct (sift_down n p _ pos1) as [h' pos'].
      destruct S as (I1 & I2 & I3).
      * unfold pos1. rewrite upd_other by exact Hxe. apply upd_same.
      * intros Hp0. pose proof (parent_lt p Hp0). rewrite upd_other by lia. pose proof (J2 p ltac:(lia)) as X. rewrite Ep in X. cbn [fst] in X. lia.
      * split; [split; [exact I1|]|apply Fr; exact I3]. cbn [hp hn]. intros e' k'. rewrite I2. symmetry. apply Hdrop.
Qed.

Lemma adjustKey_spec H pos M e k0 k : represents H pos M -> M e = Some k0 ->
  let '(H', pos') := adjustKey H pos e k in represents H' pos' (upd M e (Some k)) /\ pos_frame M None pos pos'.
Proof.
  intros R He. destruct (rep_pos H pos M e k0 R He) as [Hp Ep]. unfold adjustKey. set (p := pos e) in *. rewrite Ep. cbn [fst snd].
  set (x := (k, e)). set (n := hn H) in *.
  assert (Eid : eid (hp H p) = e) by (rewrite Ep; reflexivity).
  assert (Hid : forall i, (i < n)%nat -> i <> p -> eid (hp H i) <> e).
  { intros i Hi Hip. rewrite <- Eid. intros X. apply Hip, (rep_inj H pos M _ _ R); assumption. }
  pose proof (proj1 R) as [J1 J2]. fold n in J1, J2.
  assert (Ho : hole (upd (hp H) p x) n pos p x).
  { apply (hinv_hole (hp H) n n pos); [apply (proj1 R)|lia|lia|exact Hid|]. intros i Hi _. apply J1. exact Hi. }
  assert (Hset : forall e' k', holds (upd (hp H) p x) n e' k' <-> upd M e (Some k) e' = Some k').
  { intros e' k'. unfold holds. split.
    - intros (i & Hi & Ei). destruct (Nat.eq_dec i p) as [->|Hip].
      + rewrite upd_same in Ei. injection Ei as <- <-. apply upd_same.
      + rewrite upd_other in Ei by exact Hip. rewrite upd_other; [apply (proj2 R); exists i; split; assumption|].
        intros ->. apply (Hid i Hi Hip). rewrite Ei. reflexivity.
    - intros E. unfold upd in E. destruct (Nat.eqb_spec e' e) as [->|Hne].
      + injection E as <-. exists p. split; [exact Hp|apply upd_same].
      + apply (proj2 R) in E. destruct E as (i & Hi & Ei). exists i. split; [exact Hi|]. rewrite upd_other; [exact Ei|].
        intros ->. rewrite Ep in Ei. congruence. }
  assert (Fr : forall pos', frame (upd (hp H) p x) n p x pos pos' -> pos_frame M None pos pos').
  { intros pos' F e' He' _. apply F.
    - cbn. intros ->. congruence.
    - intros i Hi Hip. rewrite upd_other by exact Hip. intros X. pose proof (rep_in H pos M i R Hi) as Y. rewrite X, He' in Y. discriminate. }
  destruct (Z.ltb_spec k0 k) as [L|L]; [|destruct (Z.ltb_spec k k0) as [L2|L2]].
  - pose proof (sift_up_spec p x p (upd (hp H) p x) pos n ltac:(lia) Ho) as S.
    destruct (sift_up p x p _ pos) as [h' pos']. destruct S as (I1 & I2 & I3).
    { intros c Hc Hcp. pose proof (parent_lt c ltac:(lia)). rewrite upd_other by lia. pose proof (J2 c ltac:(lia)) as X. rewrite Hcp, Ep in X. cbn in *. lia. }
    split; [split; [exact I1|]|apply Fr; exact I3]. cbn [hp hn]. intros e' k'. rewrite I2, <- Hset. unfold holds.
    split; intros (i & Hi & Ei); exists i; (split; [exact Hi|]); revert Ei; unfold upd; destruct (Nat.eqb i p); intros Ei; exact Ei.
  - pose proof (sift_down_spec n p (upd (hp H) p x) pos) as S. rewrite upd_same in S. specialize (S Ho).
    destruct (sift_down n p _ pos) as [h' pos'].
    destruct S as (I1 & I2 & I3).
    + reflexivity.
    + intros Hp0. pose proof (parent_lt p Hp0). rewrite upd_other by lia. pose proof (J2 p ltac:(lia)) as X. rewrite Ep in X. cbn in *. lia.
    + split; [split; [exact I1|]|apply Fr; exact I3]. cbn [hp hn]. intros e' k'. rewrite I2. symmetry. apply Hset.
  - assert (k = k0) by lia. subst k0. split; [split; [exact (proj1 R)|]|intros e' _ _; reflexivity].
    intros e' k'. rewrite <- (proj2 R). unfold upd. destruct (Nat.eqb_spec e' e) as [->|]; [rewrite He|]; reflexivity.
Qed.

(** *** Histories over a family of heaps sharing the handles *)
Inductive hop := OpInsert (i e : nat) (k : Z) | OpDeleteTop (i : nat) | OpRemove (i e : nat) | OpAdjust (i e : nat) (k : Z)
  | OpInsertOrAdjust (i e : nat) (k : Z) | OpClear (i : nat).
Record hst := mkHS { hs : nat -> heap; hpos : nat -> nat }.
Definition set_heap (s : hst) (i : nat) (r : heap * (nat -> nat)) : hst := mkHS (upd (hs s) i (fst r)) (snd r).
Definition hexec (s : hst) (o : hop) : hst :=
  match o with
  | OpInsert i e k => set_heap s i (insert (hs s i) (hpos s) e k)
  | OpDeleteTop i => set_heap s i (deleteTop (hs s i) (hpos s))
  | OpRemove i e => set_heap s i (remove (hs s i) (hpos s) e)
  | OpAdjust i e k => set_heap s i (adjustKey (hs s i) (hpos s) e k)
  | OpInsertOrAdjust i e k => set_heap s i (insertOrAdjustKey (hs s i) (hpos s) e k)
  | OpClear i => set_heap s i (clear (hs s i), hpos s)
  end.
(** Contents of all heaps: heap -> id -> key.  Contract of an operation, and its effect; deleteTop removes the element
    that top() returned before. *)
Definition contents := nat -> nat -> option Z.
Definition nowhere_else (M : contents) (i e : nat) : Prop := forall j, j <> i -> M j e = None.
Definition hpre (M : contents) (o : hop) : Prop :=
  match o with
  | OpInsert i e k => forall j, M j e = None
  | OpDeleteTop i => exists e, M i e <> None
  | OpRemove i e => M i e <> None
  | OpAdjust i e k => M i e <> None
  | OpInsertOrAdjust i e k => nowhere_else M i e
  | OpClear i => True
  end.
Definition heffect (s : hst) (M : contents) (o : hop) : contents :=
  match o with
  | OpInsert i e k | OpAdjust i e k | OpInsertOrAdjust i e k => upd M i (upd (M i) e (Some k))
  | OpDeleteTop i => upd M i (upd (M i) (top (hs s i)) None)
  | OpRemove i e => upd M i (upd (M i) e None)
  | OpClear i => upd M i (fun _ => None)
  end.
Inductive history : hst -> contents -> Prop :=
| hist_init s : (forall i, hn (hs s i) = 0%nat) -> history s (fun _ _ => None)
| hist_step s M o : history s M -> hpre M o -> history (hexec s o) (heffect s M o).

Definition all_rep (s : hst) (M : contents) : Prop :=
  (forall i, represents (hs s i) (hpos s) (M i)) /\ forall i j e, i <> j -> M i e <> None -> M j e = None.

Lemma rep_pos_ext H pos pos' M : represents H pos M -> (forall e, M e <> None -> pos' e = pos e) -> represents H pos' M.
Proof.
  intros R E. split; [|exact (proj2 R)]. destruct (proj1 R) as [J1 J2]. constructor; [|exact J2].
  intros i Hi. rewrite E; [apply J1; exact Hi|]. rewrite (rep_in H pos M i R Hi). discriminate.
Qed.
Lemma rep_map_ext H pos M M' : represents H pos M -> (forall e, M e = M' e) -> represents H pos M'.
Proof. intros R E. split; [exact (proj1 R)|]. intros e k. rewrite <- E. apply (proj2 R). Qed.

(** One operation on heap i. *)
Lemma step_rep s M i r Mi e0 : all_rep s M ->
  represents (fst r) (snd r) Mi -> pos_frame (M i) e0 (hpos s) (snd r) ->
  (forall e, Mi e <> None -> M i e <> None \/ e0 = Some e) ->
  (forall e, e0 = Some e -> nowhere_else M i e) ->
  all_rep (set_heap s i r) (upd M i Mi).
Proof.
  intros [R D] Ri F S N. split.
  - intros j. unfold set_heap; cbn [hs hpos]. unfold upd. destruct (Nat.eqb_spec j i) as [->|Hji]; [exact Ri|].
    apply (rep_pos_ext _ (hpos s)); [apply R|]. intros e He. apply F.
    + apply (D j i e Hji He).
    + intros X. rewrite (N e X j Hji) in He. congruence.
  - intros j l e Hjl. unfold upd. destruct (Nat.eqb_spec j i) as [->|Hji], (Nat.eqb_spec l i) as [->|Hli]; try congruence.
    + intros He. destruct (S e He) as [X|X]; [apply (D i l e Hjl X)|apply (N e X l Hli)].
    + intros He. destruct (Mi e) eqn:E; [|reflexivity]. exfalso. destruct (S e) as [X|X]; [congruence| |].
      * apply He. apply (D i j e); [congruence|exact X].
      * apply He. apply (N e X j Hji).
    + apply D. exact Hjl.
Qed.

Lemma history_rep s M : history s M -> all_rep s M.
Proof.
  induction 1 as [s Hz|s M o Hh IH Hp].
  - split; [|intros i j e _ X; congruence]. intros i. split.
    + constructor; intros x Hx; rewrite Hz in Hx; lia.
    + intros e k. split; [discriminate|]. intros (x & Hx & _). rewrite Hz in Hx. lia.
  - pose proof IH as [R D]. destruct o as [i e k|i|i e|i e k|i e k|i]; cbn [hexec heffect hpre] in *.
    + pose proof (insert_spec (hs s i) (hpos s) (M i) e k (R i) (Hp i)) as S. destruct (insert _ _ _ _) as [H' pos'].
      destruct S as [S1 S2]. apply (step_rep s M i (H', pos') _ (Some e) IH S1 S2).
      * intros z Hz0. unfold upd in Hz0. destruct (Nat.eqb_spec z e) as [Ez|Ez]; [right; congruence|left; exact Hz0].
      * intros x Hx j _. injection Hx as <-. apply Hp.
    + assert (Hne : hn (hs s i) <> 0%nat).
      { destruct Hp as [e He]. destruct (M i e) as [k|] eqn:E; [|congruence]. destruct (rep_pos _ _ _ e k (R i) E). lia. }
      pose proof (deleteTop_spec (hs s i) (hpos s) (M i) (R i) Hne) as S. destruct (deleteTop _ _) as [H' pos'].
      destruct S as [S1 S2]. apply (step_rep s M i (H', pos') _ None IH S1 S2); [|discriminate].
      intros z Hz0. left. unfold upd in Hz0. destruct (Nat.eqb z _); congruence.
    + destruct (M i e) as [k|] eqn:E; [|congruence].
      pose proof (remove_spec (hs s i) (hpos s) (M i) e k (R i) E) as S. destruct (remove _ _ _) as [H' pos'].
      destruct S as [S1 S2]. apply (step_rep s M i (H', pos') _ None IH S1 S2); [|discriminate].
      intros z Hz0. left. unfold upd in Hz0. destruct (Nat.eqb z _); congruence.
    + destruct (M i e) as [k0|] eqn:E; [|congruence].
      pose proof (adjustKey_spec (hs s i) (hpos s) (M i) e k0 k (R i) E) as S. destruct (adjustKey _ _ _ _) as [H' pos'].
      destruct S as [S1 S2]. apply (step_rep s M i (H', pos') _ None IH S1 S2); [|discriminate].
      intros z Hz0. left. unfold upd in Hz0. destruct (Nat.eqb_spec z e) as [Ez|Ez]; congruence.
    + unfold insertOrAdjustKey. destruct (contains (hs s i) (hpos s) e) eqn:C.
      * apply (contains_spec _ _ _ _ (R i)) in C. destruct (M i e) as [k0|] eqn:E; [|congruence].
        pose proof (adjustKey_spec (hs s i) (hpos s) (M i) e k0 k (R i) E) as S. destruct (adjustKey _ _ _ _) as [H' pos'].
        destruct S as [S1 S2]. apply (step_rep s M i (H', pos') _ None IH S1 S2); [|discriminate].
        intros z Hz0. left. unfold upd in Hz0. destruct (Nat.eqb_spec z e) as [Ez|Ez]; congruence.
      * assert (E : M i e = None).
        { destruct (M i e) eqn:E; [|reflexivity]. exfalso. assert (X : contains (hs s i) (hpos s) e = true); [|congruence].
          apply (contains_spec _ _ _ _ (R i)). congruence. }
        pose proof (insert_spec (hs s i) (hpos s) (M i) e k (R i) E) as S. destruct (insert _ _ _ _) as [H' pos'].
        destruct S as [S1 S2]. apply (step_rep s M i (H', pos') _ (Some e) IH S1 S2).
        -- intros z Hz0. unfold upd in Hz0. destruct (Nat.eqb_spec z e) as [Ez|Ez]; [right; congruence|left; exact Hz0].
        -- intros x Hx. injection Hx as <-. exact Hp.
    + apply (step_rep s M i (clear (hs s i), hpos s) (fun _ => None) None IH); [|intros e _ _; reflexivity|congruence|discriminate].
      split; [constructor; intros x Hx; cbn [clear hn fst] in Hx; lia|]. intros e k. split; [discriminate|].
      intros (x & Hx & _). cbn [clear hn fst] in Hx. lia.
Qed.

(** C47: after any history (arity at least 2, any number of heaps on one handle array): contains/getKey report the contents,
    empty iff there are none, and top/topKey is an element with maximum key. *)
Theorem C47_priority_queue s M : history s M -> forall i,
  (forall e, contains (hs s i) (hpos s) e = true <-> M i e <> None) /\
  (forall e k, M i e = Some k -> getKey (hs s i) (hpos s) e = k) /\
  (empty (hs s i) = true <-> forall e, M i e = None) /\
  (empty (hs s i) = false -> M i (top (hs s i)) = Some (topKey (hs s i)) /\ forall e k, M i e = Some k -> k <= topKey (hs s i)).
Proof.
  intros Hh i. destruct (history_rep s M Hh) as [R D]. specialize (R i). split; [|split; [|split]].
  - intros e. apply contains_spec. exact R.
  - intros e k. apply getKey_spec. exact R.
  - apply (empty_spec _ _ _ R).
  - intros E. apply (top_spec _ (hpos s) _ R). apply Nat.eqb_neq. exact E.
Qed.
End Heap.

(** A concrete history on two 4-ary heaps with garbage in the handles. *)
Definition ex_h0 : hst := mkHS (fun _ => mkHp (fun _ => (7, 7%nat)) 0) (fun e => (e * 3)%nat).
Definition ex_hops : list hop :=
  [OpInsert 0 5 3; OpInsert 0 2 8; OpInsert 1 4 1; OpInsert 0 1 6; OpInsert 0 9 4; OpInsert 0 8 5; OpAdjust 0 5 9; OpDeleteTop 0;
   OpInsertOrAdjust 1 5 2; OpRemove 0 1; OpInsertOrAdjust 0 2 0]%nat.
Lemma ex_history : history 4 1000 (fold_left (hexec 4 1000) ex_hops ex_h0)
   (snd (fold_left (fun sm o => (hexec 4 1000 (fst sm) o, heffect (fst sm) (snd sm) o)) ex_hops (ex_h0, fun _ _ => None))).
Proof.
  assert (G : forall ops s M, history 4 1000 s M ->
     (fix ok (s : hst) (M : contents) (l : list hop) : Prop := match l with [] => True | o :: r => hpre M o /\ ok (hexec 4 1000 s o) (heffect s M o) r end) s M ops ->
     history 4 1000 (fold_left (hexec 4 1000) ops s) (snd (fold_left (fun sm o => (hexec 4 1000 (fst sm) o, heffect (fst sm) (snd sm) o)) ops (s, M)))).
  { induction ops as [|o ops IH]; intros s M Hh Hok; [exact Hh|]. cbn [fold_left fst snd]. destruct Hok as [H1 H2].
    apply IH; [apply hist_step; assumption|exact H2]. }
  apply G; [apply hist_init; reflexivity|].
  unfold ex_hops.
  repeat (refine (conj _ _); [cbn [hpre]|]); [..|exact I].
  all: try (intros j; destruct j as [|[|j]]; vm_compute; reflexivity).
  all: try (vm_compute; discriminate).
  - exists 2%nat. vm_compute. discriminate.
  - intros j Hj. destruct j as [|[|j]]; [congruence|vm_compute; reflexivity|vm_compute; reflexivity].
Qed.
Example ex_pq : let s := fold_left (hexec 4 1000) ex_hops ex_h0 in
  top (hs s 0%nat) = 8%nat /\ topKey (hs s 0%nat) = 5 /\ top (hs s 1%nat) = 5%nat /\ contains (hs s 0%nat) (hpos s) 5 = false /\ getKey (hs s 0%nat) (hpos s) 2 = 0.
Proof. vm_compute. repeat split; reflexivity. Qed.
