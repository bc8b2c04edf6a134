(** The growing hash map with linear probing.

    /repo/mt-kahypar/datastructures/sparse_map.h:445-542 (DynamicMapBase) and
    545-665 (DynamicSparseMap).

    Simplifications: integers are unbounded (the timestamp never wraps around); a
    pointer into the dense array is an index; the flag INVALID_POS_MASK in the
    result of find is the constructor [Free]; the capacity is given by its binary
    logarithm, as align_to_next_power_of_two returns powers of two (in double
    precision); a search that does not end gives [None]; a map on which
    freeInternalData was called is not used afterwards. *)
From Coq Require Import List Arith Lia Bool ZArith.
From Verif Require Import Base.
Import ListNotations.
Local Open Scope nat_scope.

Lemma nodup_map_in {A B} (f : A -> B) l : (forall x y, In x l -> In y l -> f x = f y -> x = y) -> NoDup l -> NoDup (map f l).
Proof.
  intros I N. induction N as [|a l Ha N IH]; cbn; constructor.
  - intros X. apply in_map_iff in X. destruct X as (y & E & Hy). apply Ha. rewrite <- (I y a); auto; now right + now left.
  - apply IH. intros x y Hx Hy. apply I; now right.
Qed.
Section Model.
Context {V : Type}.
Variable dflt : V.    (* Value() *)
Inductive op := Access (key : nat) (f : V -> V) | Clear.   (* map[key] = f(map[key]); clear() *)

(** ** Specification: a finite map *)
Definition spec_step (m : nat -> option V) (o : op) : nat -> option V :=
  match o with
  | Access k f => fun x => if x =? k then Some (f (match m k with Some v => v | None => dflt end)) else m x
  | Clear => fun _ => None
  end.
Definition spec (l : list op) : nat -> option V := fold_left spec_step l (fun _ => None).

(** ** Model *)
Record dmap := mkD { d_log : nat; d_size : nat; d_ts : nat; d_sparse : nat -> nat * nat (* index, timestamp *); d_dense : nat -> nat * V }.
Definition capacity (s : dmap) : nat := 2 ^ d_log s.
(** 484-491 initialize: the memory is set to zero *)
Definition init (c : nat) : dmap := mkD c 0 1 (fun _ => (0, 0)) (fun _ => (0, dflt)).
Inductive pos := Found (p : nat) | Free (p : nat).
(** 609-618 findImpl; every position is visited at most once *)
Fixpoint probe (s : dmap) (key : nat) (fuel hash : nat) : option pos :=
  match fuel with
  | 0 => None
  | S fuel' =>
      if snd (d_sparse s hash) =? d_ts s
      then if fst (d_dense s (fst (d_sparse s hash))) =? key then Some (Found hash)
           else probe s key fuel' (Nat.land (hash + 1) (capacity s - 1))
      else Some (Free hash)
  end.
Definition find (s : dmap) (key : nat) : option pos := probe s key (capacity s) (Nat.land key (capacity s - 1)).
(** 626-631 addElementImpl *)
Definition add (s : dmap) (key : nat) (v : V) (p : nat) : dmap :=
  mkD (d_log s) (S (d_size s)) (d_ts s) (upd (d_sparse s) p (d_size s, d_ts s)) (upd (d_dense s) (d_size s) (key, v)).
(** 638-650 rehashImpl *)
Definition rehash_step (s : option dmap) (x : nat * V) : option dmap :=
  match s with
  | Some s => match find s (fst x) with Some (Found p) | Some (Free p) => Some (add s (fst x) (snd x) p) | None => None end
  | None => None
  end.
Definition elements (s : dmap) : list (nat * V) := map (d_dense s) (seq 0 (d_size s)).
(** 518-529 grow *)
Definition grow (s : dmap) : option dmap := fold_left rehash_step (elements s) (Some (init (S (d_log s)))).
(** 498-509 operator[], the value is then replaced by [f] of it *)
Definition store (s : dmap) (p : nat) (f : V -> V) : dmap :=
  let i := fst (d_sparse s p) in mkD (d_log s) (d_size s) (d_ts s) (d_sparse s) (upd (d_dense s) i (fst (d_dense s i), f (snd (d_dense s i)))).
Definition access (s : dmap) (key : nat) (f : V -> V) : option dmap :=
  match find s key with
  | None => None
  | Some (Found p) => Some (store s p f)
  | Some (Free p) =>
      if capacity s * 2 / 5 <? d_size s + 1
      then match grow s with
           | Some g => match find g key with Some (Found q) | Some (Free q) => Some (store (add g key dflt q) q f) | None => None end
           | None => None
           end
      else Some (store (add s key dflt p) p f)
  end.
(** 521-524 clear *)
Definition clear (s : dmap) : dmap := mkD (d_log s) 0 (S (d_ts s)) (d_sparse s) (d_dense s).
Definition step (s : option dmap) (o : op) : option dmap :=
  match s with Some s => match o with Access k f => access s k f | Clear => Some (clear s) end | None => None end.
Definition run (c : nat) (l : list op) : option dmap := fold_left step l (Some (init c)).
(** 493-496 contains and 511-521 get, get_if_contained *)
Definition lookup (s : dmap) (key : nat) : option V :=
  match find s key with Some (Found p) => Some (snd (d_dense s (fst (d_sparse s p)))) | _ => None end.

(** ** Proofs *)
Definition live (s : dmap) (p : nat) : bool := snd (d_sparse s p) =? d_ts s.
Definition idx (s : dmap) (p : nat) : nat := fst (d_sparse s p).
Definition keyat (s : dmap) (i : nat) : nat := fst (d_dense s i).
(** the position after [d] steps *)
Definition at_ (s : dmap) (key d : nat) : nat := (key + d) mod capacity s.
Record inv (s : dmap) : Prop := {
  v_size : d_size s < capacity s;
  v_ts : forall p, snd (d_sparse s p) <= d_ts s;
  v_idx : forall p, p < capacity s -> live s p = true -> idx s p < d_size s;
  v_inj : forall p q, p < capacity s -> q < capacity s -> live s p = true -> live s q = true -> idx s p = idx s q -> p = q;
  v_keys : forall i j, i < d_size s -> j < d_size s -> keyat s i = keyat s j -> i = j;
  v_path : forall i, i < d_size s -> exists d, d < capacity s /\ live s (at_ s (keyat s i) d) = true /\ idx s (at_ s (keyat s i) d) = i /\
             forall d', d' < d -> live s (at_ s (keyat s i) d') = true;
  v_pos : 0 < d_ts s
}.
Lemma cap_pos s : 0 < capacity s.
Proof. unfold capacity. induction (d_log s); cbn; lia. Qed.
Lemma land_mod s x : Nat.land x (capacity s - 1) = x mod capacity s.
Proof. unfold capacity. rewrite Nat.sub_1_r, <- Nat.ones_equiv. apply Nat.land_ones. Qed.
Lemma at_lt s k d : at_ s k d < capacity s.
Proof. unfold at_. apply Nat.mod_upper_bound. pose proof (cap_pos s). lia. Qed.
Lemma at_next s k d : Nat.land (at_ s k d + 1) (capacity s - 1) = at_ s k (S d).
Proof. rewrite land_mod. unfold at_. rewrite Nat.add_mod_idemp_l by (pose proof (cap_pos s); lia). f_equal. lia. Qed.
Lemma at_inj s k d e : d < capacity s -> e < capacity s -> at_ s k d = at_ s k e -> d = e.
Proof.
  unfold at_. intros Hd He E. pose proof (cap_pos s) as C.
  pose proof (Nat.div_mod (k + d) (capacity s) ltac:(lia)) as A1. pose proof (Nat.div_mod (k + e) (capacity s) ltac:(lia)) as A2. rewrite E in A1.
  destruct (Nat.lt_trichotomy ((k + d) / capacity s) ((k + e) / capacity s)) as [L|[L|L]]; [|rewrite L in A1; lia|]; nia.
Qed.
(** some position is free *)
Lemma free_exists s k : inv s -> exists d, d < capacity s /\ live s (at_ s k d) = false.
Proof.
  intros I. destruct (existsb (fun d => negb (live s (at_ s k d))) (seq 0 (capacity s))) eqn:E.
  - apply existsb_exists in E. destruct E as (d & Hd & F). apply in_seq in Hd. exists d. split; [lia|]. now apply negb_true_iff.
  - exfalso. assert (A : forall d, d < capacity s -> live s (at_ s k d) = true).
    { intros d Hd. destruct (live s (at_ s k d)) eqn:F; auto. assert (X : existsb (fun d => negb (live s (at_ s k d))) (seq 0 (capacity s)) = true); [|congruence].
      apply existsb_exists. exists d. rewrite F. split; auto. apply in_seq. lia. }
    pose proof (NoDup_incl_length (l := map (fun d => idx s (at_ s k d)) (seq 0 (capacity s))) (l' := seq 0 (d_size s))) as N. rewrite map_length, !seq_length in N.
    pose proof (v_size _ I) as Z. enough (capacity s <= d_size s) by lia. apply N.
    + apply nodup_map_in; [|apply seq_NoDup]. intros x y Hx Hy F. apply in_seq in Hx, Hy. apply (at_inj s k); try lia.
      apply (v_inj _ I); auto using at_lt; apply A; lia.
    + intros i Hi. apply in_map_iff in Hi. destruct Hi as (d & <- & Hd). apply in_seq in Hd. apply in_seq. split; [lia|]. apply (v_idx _ I); [apply at_lt|apply A; lia].
Qed.
Lemma probe_spec s k fuel : forall d, d + fuel = capacity s -> (forall d', d' < d -> live s (at_ s k d') = true /\ keyat s (idx s (at_ s k d')) <> k) ->
  (exists e, d <= e < capacity s /\ live s (at_ s k e) = false) ->
  exists e, e < capacity s /\ (forall d', d' < e -> live s (at_ s k d') = true /\ keyat s (idx s (at_ s k d')) <> k) /\
    ((live s (at_ s k e) = false /\ probe s k fuel (at_ s k d) = Some (Free (at_ s k e))) \/
     (live s (at_ s k e) = true /\ keyat s (idx s (at_ s k e)) = k /\ probe s k fuel (at_ s k d) = Some (Found (at_ s k e)))).
Proof.
  induction fuel as [|fuel IH]; intros d L P (e & He & F); [lia|]. cbn [probe]. fold (live s (at_ s k d)). fold (idx s (at_ s k d)). fold (keyat s (idx s (at_ s k d))).
  destruct (live s (at_ s k d)) eqn:Lv; [|exists d; split; [lia|]; split; auto].
  destruct (keyat s (idx s (at_ s k d)) =? k) eqn:K.
  - apply Nat.eqb_eq in K. exists d. split; [lia|]. split; auto.
  - apply Nat.eqb_neq in K. rewrite at_next. apply (IH (S d)); [lia| |].
    + intros d' Hd. destruct (Nat.eq_dec d' d) as [->|]; auto. apply P. lia.
    + exists e. split; auto. destruct (Nat.eq_dec e d) as [->|]; [congruence|lia].
Qed.
Lemma find_spec s k : inv s -> exists e, e < capacity s /\ (forall d', d' < e -> live s (at_ s k d') = true /\ keyat s (idx s (at_ s k d')) <> k) /\
    ((live s (at_ s k e) = false /\ find s k = Some (Free (at_ s k e))) \/
     (live s (at_ s k e) = true /\ keyat s (idx s (at_ s k e)) = k /\ find s k = Some (Found (at_ s k e)))).
Proof.
  intros I. unfold find. rewrite land_mod. replace (k mod capacity s) with (at_ s k 0) by (unfold at_; f_equal; lia).
  apply probe_spec; [reflexivity|lia|]. destruct (free_exists s k I) as (e & He & F). exists e. split; auto. lia.
Qed.
(** what find returns *)
Lemma find_found s i : inv s -> i < d_size s -> exists p, p < capacity s /\ find s (keyat s i) = Some (Found p) /\ idx s p = i.
Proof.
  intros I Hi. destruct (find_spec s (keyat s i) I) as (e & He & P & C). destruct (v_path _ I i Hi) as (d & Hd & L & X & Q).
  destruct C as [(F & E)|(F & K & E)].
  - exfalso. destruct (Nat.lt_trichotomy d e) as [Y|[Y|Y]].
    + destruct (P d Y) as (_ & K). apply K. now rewrite X.
    + subst. congruence.
    + rewrite (Q e Y) in F. discriminate.
  - exists (at_ s (keyat s i) e). split; [apply at_lt|]. split; auto. apply (v_keys _ I); auto. apply (v_idx _ I); auto using at_lt.
Qed.
Lemma find_free s k : inv s -> (forall i, i < d_size s -> keyat s i <> k) -> exists e, e < capacity s /\ find s k = Some (Free (at_ s k e)) /\
  live s (at_ s k e) = false /\ forall d', d' < e -> live s (at_ s k d') = true.
Proof.
  intros I N. destruct (find_spec s k I) as (e & He & P & C). destruct C as [(F & E)|(F & K & E)].
  - exists e. split; auto. split; auto. split; auto. intros d' L. apply P. auto.
  - exfalso. apply (N (idx s (at_ s k e))); auto. apply (v_idx _ I); auto using at_lt.
Qed.
Lemma key_dec s k : (exists i, i < d_size s /\ keyat s i = k) \/ (forall i, i < d_size s -> keyat s i <> k).
Proof.
  induction (d_size s) as [|n IH]; [right; lia|]. destruct IH as [(i & L & E)|N]; [left; exists i; split; auto; lia|].
  destruct (Nat.eq_dec (keyat s n) k) as [E|E]; [left; exists n; split; auto|right; intros i L]. destruct (Nat.eq_dec i n) as [->|]; auto. apply N. lia.
Qed.
Lemma init_inv c : inv (init c).
Proof.
  constructor; cbn [init d_size d_ts d_sparse d_dense]; unfold live, idx; cbn; try discriminate; try lia.
Qed.
(** adding an element at the free position *)
Lemma add_inv s k v e : inv s -> S (d_size s) < capacity s -> (forall i, i < d_size s -> keyat s i <> k) -> e < capacity s ->
  live s (at_ s k e) = false -> (forall d', d' < e -> live s (at_ s k d') = true) -> inv (add s k v (at_ s k e)).
Proof.
  intros I Z N He F P. set (p0 := at_ s k e) in *. assert (P0 : p0 < capacity s) by apply at_lt.
  assert (LV : forall p, live (add s k v p0) p = (p =? p0) || live s p).
  { intros p. unfold live, add, upd. cbn. destruct (p =? p0); cbn; auto. now rewrite Nat.eqb_refl. }
  assert (IX : forall p, idx (add s k v p0) p = if p =? p0 then d_size s else idx s p).
  { intros p. unfold idx, add, upd. cbn. destruct (p =? p0); reflexivity. }
  assert (KY : forall i, keyat (add s k v p0) i = if i =? d_size s then k else keyat s i).
  { intros p. unfold keyat, add, upd. cbn. destruct (p =? d_size s); reflexivity. }
  constructor; change (capacity (add s k v p0)) with (capacity s); change (d_size (add s k v p0)) with (S (d_size s)); change (d_ts (add s k v p0)) with (d_ts s); change (at_ (add s k v p0)) with (at_ s).
  - exact Z.
  - intros p. cbn. unfold upd. destruct (p =? p0); cbn; [lia|apply (v_ts _ I)].
  - intros p Lp. rewrite LV, IX. destruct (Nat.eqb_spec p p0); [lia|]. cbn. intros L. pose proof (v_idx _ I p Lp L). lia.
  - intros p q Lp Lq. rewrite !LV, !IX. destruct (Nat.eqb_spec p p0), (Nat.eqb_spec q p0); cbn; intros A B E; try congruence.
    + pose proof (v_idx _ I q Lq B). lia.
    + pose proof (v_idx _ I p Lp A). lia.
    + now apply (v_inj _ I).
  - intros i j Li Lj. rewrite !KY. destruct (Nat.eqb_spec i (d_size s)), (Nat.eqb_spec j (d_size s)); intros E; try lia.
    + exfalso. apply (N j); [lia|auto].
    + exfalso. apply (N i); [lia|auto].
    + apply (v_keys _ I); try lia; auto.
  - intros i Li. rewrite !KY. destruct (Nat.eqb_spec i (d_size s)) as [->|Ne].
    + exists e. split; auto. rewrite LV, IX. fold p0. rewrite Nat.eqb_refl. split; auto. split; auto. intros d' Ld. rewrite LV, P by auto. apply orb_true_r.
    + destruct (v_path _ I i ltac:(lia)) as (d & Ld & A & B & C). exists d. split; auto. rewrite !LV, !IX, A. split; [apply orb_true_r|]. split.
      * destruct (Nat.eqb_spec (at_ s (keyat s i) d) p0) as [E|]; auto. rewrite E in A. congruence.
      * intros d' Ld'. rewrite LV, (C d' Ld'). apply orb_true_r.
  - apply (v_pos _ I).
Qed.
Lemma store_inv s p f : inv s -> inv (store s p f).
Proof.
  intros I. assert (KY : forall i, keyat (store s p f) i = keyat s i).
  { intros i. unfold keyat, store, upd. cbn. destruct (Nat.eqb_spec i (fst (d_sparse s p))) as [->|]; reflexivity. }
  destruct I as [A B C D E F G]. constructor; auto.
  - intros i j Li Lj. rewrite !KY. auto.
  - intros i Li. rewrite KY. exact (F i Li).
Qed.
(** *** Elements *)
Lemma elements_in s k v : In (k, v) (elements s) <-> exists i, i < d_size s /\ d_dense s i = (k, v).
Proof. unfold elements. rewrite in_map_iff. split; intros (i & A & B); exists i; rewrite in_seq in *; split; auto; lia. Qed.
Lemma elements_keys s : inv s -> NoDup (map fst (elements s)).
Proof.
  intros I. unfold elements. rewrite map_map. apply nodup_map_in; [|apply seq_NoDup]. intros x y Hx Hy E. apply in_seq in Hx, Hy. apply (v_keys _ I); [lia|lia|exact E].
Qed.
Lemma elements_add s k v p : elements (add s k v p) = elements s ++ [(k, v)].
Proof.
  unfold elements. change (d_size (add s k v p)) with (S (d_size s)). rewrite seq_S, map_app. cbn [map add d_dense Nat.add]. f_equal.
  - apply map_ext_in. intros i Hi. apply in_seq in Hi. apply upd_other. lia.
  - now rewrite upd_same.
Qed.
Lemma rehash_spec l : forall s, inv s -> d_size s + length l < capacity s -> NoDup (map fst (elements s ++ l)) ->
  exists g, fold_left rehash_step l (Some s) = Some g /\ inv g /\ elements g = elements s ++ l /\ d_log g = d_log s.
Proof.
  induction l as [|[k v] l IH]; intros s I Z N; cbn [fold_left length] in *.
  - exists s. rewrite app_nil_r. auto.
  - assert (F : forall i, i < d_size s -> keyat s i <> k).
    { intros i Li E. rewrite map_app in N. cbn [map fst] in N. apply NoDup_remove_2 in N. apply N. apply in_or_app. left. apply in_map_iff. exists (d_dense s i). split; [exact E|].
      unfold elements. apply in_map. apply in_seq. lia. }
    destruct (find_free s k I F) as (e & Le & E & Lv & P). cbn [rehash_step fst snd]. rewrite E.
    destruct (IH (add s k v (at_ s k e))) as (g & A & B & C & D).
    + apply add_inv; auto. lia.
    + change (capacity (add s k v (at_ s k e))) with (capacity s). cbn [add d_size]. lia.
    + rewrite elements_add, <- app_assoc. exact N.
    + exists g. split; auto. split; auto. split; auto. rewrite C, elements_add, <- app_assoc. reflexivity.
Qed.
Lemma grow_spec s : inv s -> exists g, grow s = Some g /\ inv g /\ elements g = elements s /\ d_log g = S (d_log s).
Proof.
  intros I. unfold grow. destruct (rehash_spec (elements s) (init (S (d_log s))) (init_inv _)) as (g & A & B & C & D).
  - unfold elements. rewrite map_length, seq_length. cbn [init d_size]. pose proof (v_size _ I). unfold capacity in *. cbn [init d_log]. rewrite Nat.pow_succ_r'. lia.
  - change (elements (init (S (d_log s)))) with (@nil (nat * V)). now apply elements_keys.
  - exists g. auto.
Qed.
Lemma elements_size s : length (elements s) = d_size s.
Proof. unfold elements. now rewrite map_length, seq_length. Qed.
(** the abstract map of a state *)
Definition repr (s : dmap) (m : nat -> option V) : Prop := forall k v, In (k, v) (elements s) <-> m k = Some v.
Lemma repr_none s m k : repr s m -> (forall i, i < d_size s -> keyat s i <> k) -> m k = None.
Proof.
  intros R N. destruct (m k) as [v|] eqn:E; auto. exfalso. apply R in E. apply elements_in in E. destruct E as (i & Li & E). apply (N i Li). unfold keyat. now rewrite E.
Qed.
Lemma store_repr s m p k f : inv s -> repr s m -> idx s p < d_size s -> keyat s (idx s p) = k -> repr (store s p f) (spec_step m (Access k f)).
Proof.
  intros I R Z K x v. pose proof (v_keys _ I) as Ks. rewrite elements_in. change (d_size (store s p f)) with (d_size s). cbn [spec_step].
  assert (M : m k = Some (snd (d_dense s (idx s p)))). { apply R. apply elements_in. exists (idx s p). split; auto. rewrite <- K. unfold keyat. now destruct (d_dense s (idx s p)). }
  cbn [store d_dense]. fold (idx s p). destruct (Nat.eqb_spec x k) as [->|Ne].
  - rewrite M. split.
    + intros (i & Li & E). unfold upd in E. destruct (Nat.eqb_spec i (idx s p)) as [->|Ni]; [injection E as _ <-; reflexivity|].
      exfalso. apply Ni. apply Ks; auto. rewrite K. unfold keyat. now rewrite E.
    + intros E. injection E as <-. exists (idx s p). split; auto. rewrite upd_same. unfold keyat in K. now rewrite K.
  - rewrite <- (R x v), elements_in. split; intros (i & Li & E); exists i; split; auto; unfold upd in *; destruct (Nat.eqb_spec i (idx s p)) as [->|]; auto; exfalso; apply Ne; rewrite <- K; unfold keyat; rewrite ?E; try reflexivity.
    injection E as <- _. reflexivity.
Qed.
Lemma add_repr s m k v p : repr s m -> m k = None -> repr (add s k v p) (fun x => if x =? k then Some v else m x).
Proof.
  intros R N x w. rewrite elements_add, in_app_iff. cbn [In]. rewrite (R x w). destruct (Nat.eqb_spec x k) as [->|Ne].
  - rewrite N. split; [intros [E|[E|[]]]; congruence|]. intros E. right. left. congruence.
  - split; [intros [E|[E|[]]]; congruence|auto].
Qed.
Lemma repr_ext s m m' : (forall x, m x = m' x) -> repr s m -> repr s m'.
Proof. intros E R k v. rewrite <- E. apply R. Qed.
Lemma half s : S (d_size s) <= capacity s * 2 / 5 -> S (d_size s) < capacity s.
Proof. pose proof (cap_pos s). intros L. pose proof (Nat.div_lt_upper_bound (capacity s * 2) 5 (capacity s) ltac:(lia) ltac:(lia)). lia. Qed.
Lemma insert_repr s m k f e : inv s -> repr s m -> (forall i, i < d_size s -> keyat s i <> k) -> S (d_size s) < capacity s -> e < capacity s ->
  live s (at_ s k e) = false -> (forall d', d' < e -> live s (at_ s k d') = true) ->
  inv (store (add s k dflt (at_ s k e)) (at_ s k e) f) /\ repr (store (add s k dflt (at_ s k e)) (at_ s k e) f) (spec_step m (Access k f)).
Proof.
  intros I R N Z Le Lv P. pose proof (add_inv s k dflt e I Z N Le Lv P) as I'. split; [now apply store_inv|].
  pose proof (repr_none _ _ _ R N) as M. pose proof (add_repr s m k dflt (at_ s k e) R M) as R'.
  apply (repr_ext _ (spec_step (fun x => if x =? k then Some dflt else m x) (Access k f))).
  - intros x. cbn [spec_step]. rewrite Nat.eqb_refl, M. destruct (x =? k); reflexivity.
  - apply store_repr; auto; unfold idx, keyat; cbn [add d_sparse d_dense d_size]; rewrite ?upd_same; cbn [fst]; rewrite ?upd_same; cbn [fst]; [lia|reflexivity].
Qed.
Lemma access_spec s m k f : inv s -> repr s m -> exists t, access s k f = Some t /\ inv t /\ repr t (spec_step m (Access k f)) /\ d_log s <= d_log t.
Proof.
  intros I R. unfold access. destruct (key_dec s k) as [(i & Li & <-)|N].
  - destruct (find_found s i I Li) as (p & Lp & -> & X). exists (store s p f). split; auto. split; [now apply store_inv|]. split; [|reflexivity].
    apply store_repr; auto; now rewrite X.
  - destruct (find_free s k I N) as (e & Le & -> & Lv & P). destruct (Nat.ltb_spec (capacity s * 2 / 5) (d_size s + 1)) as [G|G].
    + destruct (grow_spec s I) as (g & -> & Ig & Eg & Lg).
      assert (Sg : d_size g = d_size s) by (rewrite <- !elements_size; congruence).
      assert (Rg : repr g m) by (intros x v; rewrite Eg; apply R).
      assert (Ng : forall i, i < d_size g -> keyat g i <> k).
      { intros i Li E. assert (X : In (d_dense g i) (elements s)) by (rewrite <- Eg; unfold elements; apply in_map, in_seq; lia).
        destruct (d_dense g i) as [x v] eqn:D. unfold keyat in E. rewrite D in E. cbn in E. subst x. apply elements_in in X. destruct X as (j & Lj & Ej). apply (N j Lj). unfold keyat. now rewrite Ej. }
      destruct (find_free g k Ig Ng) as (e' & Le' & -> & Lv' & P').
      assert (Zg : S (d_size g) < capacity g). { rewrite Sg. pose proof (v_size _ I). unfold capacity in *. rewrite Lg, Nat.pow_succ_r'. lia. }
      destruct (insert_repr g m k f e' Ig Rg Ng Zg Le' Lv' P') as (A & B). eexists. split; [reflexivity|]. split; auto. split; auto. cbn [store add d_log]. lia.
    + destruct (insert_repr s m k f e I R N (half s ltac:(lia)) Le Lv P) as (A & B). eexists. split; [reflexivity|]. auto.
Qed.
Lemma clear_inv s : inv s -> inv (clear s).
Proof.
  intros [A B C D E F G]. assert (X : forall p, live (clear s) p = false).
  { intros p. unfold live. cbn. apply Nat.eqb_neq. specialize (B p). lia. }
  constructor; unfold clear in *; cbn [d_size d_ts d_sparse]; try lia;
    try solve [apply cap_pos|intros p; specialize (B p); lia|intros p _ L; rewrite X in L; discriminate|intros p q _ _ L; rewrite X in L; discriminate].
Qed.
Lemma run_inv c l : exists s, run c l = Some s /\ inv s /\ repr s (spec l) /\ c <= d_log s.
Proof.
  unfold run, spec. assert (G : forall l s m, inv s -> repr s m -> c <= d_log s -> exists t, fold_left step l (Some s) = Some t /\ inv t /\ repr t (fold_left spec_step l m) /\ c <= d_log t).
  { clear l. induction l as [|o l IH]; intros s m I R L; cbn [fold_left]; [exists s; auto|]. destruct o as [k f|]; cbn [step].
    - destruct (access_spec s m k f I R) as (t & -> & It & Rt & Lt). apply IH; auto. lia.
    - apply IH; [now apply clear_inv| |exact L]. intros k v. cbn. split; [intros []|discriminate]. }
  apply G; [apply init_inv| |reflexivity]. intros k v. cbn. split; [intros []|discriminate].
Qed.
Lemma lookup_repr s m k : inv s -> repr s m -> find s k <> None /\ lookup s k = m k.
Proof.
  intros I R. unfold lookup. destruct (key_dec s k) as [(i & Li & <-)|N].
  - destruct (find_found s i I Li) as (p & Lp & -> & X). split; [discriminate|]. fold (idx s p). rewrite X. symmetry. apply R. apply elements_in. exists i. split; auto. unfold keyat. now destruct (d_dense s i).
  - destruct (find_free s k I N) as (e & Le & -> & Lv & P). split; [discriminate|]. symmetry. eapply repr_none; eauto.
Qed.

(** ** Theorem: the map *)
(** After every sequence of operations (on a map created with any capacity): the
    operations and every search end; a search finds exactly the keys of the map
    and their values; the iteration visits every entry exactly once; size() is the
    number of entries; at least one position is free. *)
Theorem C92_map c l : exists s, run c l = Some s /\
  (forall k, find s k <> None /\ lookup s k = spec l k) /\
  (forall k v, In (k, v) (elements s) <-> spec l k = Some v) /\ NoDup (map fst (elements s)) /\
  d_size s = length (elements s) /\ d_size s < capacity s.
Proof.
  destruct (run_inv c l) as (s & E & I & R & _). exists s. split; auto. split; [intros k; now apply lookup_repr|]. split; [exact R|].
  split; [now apply elements_keys|]. split; [symmetry; apply elements_size|apply (v_size _ I)].
Qed.
(** An access leaves the entries of all other keys as they are, also if the table
    grows, and iteration stays in the order of insertion. *)
Theorem C92_order c l s k f : run c l = Some s -> exists t, run c (l ++ [Access k f]) = Some t /\
  (exists rest, map fst (elements t) = map fst (elements s) ++ rest /\ (rest = [] /\ spec l k <> None \/ rest = [k] /\ spec l k = None)).
Proof.
  intros Er. destruct (run_inv c l) as (s' & E & I & R & _). rewrite Er in E. injection E as <-.
  assert (ST : forall s p, map fst (elements (store s p f)) = map fst (elements s)).
  { intros s0 p. unfold elements. rewrite !map_map. apply map_ext_in. intros i _. cbn [store d_dense]. unfold upd. destruct (Nat.eqb_spec i (fst (d_sparse s0 p))) as [->|]; reflexivity. }
  unfold run. rewrite fold_left_app. fold (run c l). rewrite Er. cbn [fold_left step]. unfold access. destruct (key_dec s k) as [(i & Li & K)|N].
  - subst k. destruct (find_found s i I Li) as (p & Lp & -> & X). eexists. split; [reflexivity|]. exists []. rewrite ST, app_nil_r. split; auto. left. split; auto.
    assert (Y : spec l (keyat s i) = Some (snd (d_dense s i))); [|congruence]. apply R. apply elements_in. exists i. split; auto. unfold keyat. now destruct (d_dense s i).
  - pose proof (repr_none _ _ _ R N) as M. destruct (find_free s k I N) as (e & Le & -> & Lv & P). destruct (Nat.ltb_spec (capacity s * 2 / 5) (d_size s + 1)) as [G|G].
    + destruct (grow_spec s I) as (g & -> & Ig & Eg & Lg). destruct (find_spec g k Ig) as (e' & _ & _ & [(_ & ->)|(_ & _ & ->)]); (eexists; split; [reflexivity|]; exists [k]; rewrite ST, elements_add, map_app, Eg; split; auto).
    + eexists. split; [reflexivity|]. exists [k]. rewrite ST, elements_add, map_app. split; auto.
Qed.
End Model.

(** ** A concrete case: collisions, growth (capacity 4 to 8), clear *)
Definition inc_ (v : nat) : nat := v + 1.
Definition exops : list op := [Access 3 inc_; Access 7 inc_; Access 3 inc_; Clear; Access 7 inc_; Access 15 inc_; Access 8 inc_; Access 15 inc_].
Theorem C92_example : (match run 0 2 exops with Some s => Some (d_log s, elements s, map (find s) [7; 15; 8; 3]) | None => None end) =
  Some (3, [(7, 1); (15, 2); (8, 1)], [Some (Found 7); Some (Found 0); Some (Found 1); Some (Free 3)]).
Proof. vm_compute. reflexivity. Qed.
Print Assumptions C92_map.
Print Assumptions C92_order.
