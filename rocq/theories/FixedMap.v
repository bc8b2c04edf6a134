(** The hash map of fixed size.

    /repo/mt-kahypar/datastructures/sparse_map.h:259-442 (FixedSizeSparseMap); the
    table, the probing and the writing of an entry are those of DynMap.v (find
    366-377, addElement 388-396, allocate 398-410).

    Simplifications: as in DynMap.v; align_to_next_power_of_two returns the least
    power of two that is not smaller. *)
From Coq Require Import List Arith Lia Bool ZArith.
From Verif Require Import Base DynMap.
Import ListNotations.
Local Open Scope nat_scope.

Section Model.
Context {V : Type}.
Variable dflt : V.    (* _initial_value *)
Inductive fop := FAccess (key : nat) (f : V -> V) | FClear | FSetMax (n : nat).

(** ** Specification: capacity and finite map; a larger capacity empties the map *)
Definition fx_spec_step (st : nat * (nat -> option V)) (o : fop) : nat * (nat -> option V) :=
  let '(c, m) := st in
  match o with
  | FAccess k f => (c, fun x => if x =? k then Some (f (match m k with Some v => v | None => dflt end)) else m x)
  | FClear => (c, fun _ => None)
  | FSetMax n => if c <? n then (2 ^ Nat.log2_up n, fun _ => None) else (c, m)
  end.
Definition fx_spec (c : nat) (l : list fop) : nat * (nat -> option V) := fold_left fx_spec_step l (c, fun _ => None).
(** fewer keys than the capacity *)
Definition fits (st : nat * (nat -> option V)) : Prop :=
  forall ks, NoDup ks -> (forall k, In k ks -> snd st k <> None) -> length ks < fst st.

(** ** Model *)
(** 339-347 operator[] *)
Definition fx_access (s : dmap (V := V)) (key : nat) (f : V -> V) : option dmap :=
  match find s key with
  | None => None
  | Some (Found p) => Some (store s p f)
  | Some (Free p) => Some (store (add s key dflt p) p f)
  end.
(** 327-332 setMaxSize *)
Definition fx_setmax (s : dmap (V := V)) (n : nat) : dmap := if capacity s <? n then init dflt (Nat.log2_up n) else s.
Definition fx_step (s : option dmap) (o : fop) : option dmap :=
  match s with
  | Some s => match o with FAccess k f => fx_access s k f | FClear => Some (clear s) | FSetMax n => Some (fx_setmax s n) end
  | None => None
  end.
(** a map created with room for [n] elements (280-301) *)
Definition fx_run (n : nat) (l : list fop) : option dmap := fold_left fx_step l (Some (init dflt (Nat.log2_up n))).

(** ** Proofs *)
Lemma empty_repr c : repr (init dflt c) (fun _ => None).
Proof. intros k v. cbn. split; [intros []|discriminate]. Qed.
Lemma fx_access_spec s m k f : inv s -> repr s m -> fits (capacity s, spec_step dflt m (Access k f)) ->
  exists t, fx_access s k f = Some t /\ inv t /\ repr t (spec_step dflt m (Access k f)) /\ capacity t = capacity s.
Proof.
  intros I R F. unfold fx_access. destruct (key_dec s k) as [(i & Li & <-)|N].
  - destruct (find_found s i I Li) as (p & Lp & -> & X). exists (store s p f). split; auto. split; [now apply store_inv|]. split; [|reflexivity].
    apply store_repr; auto; now rewrite X.
  - destruct (find_free s k I N) as (e & Le & -> & Lv & P).
    assert (Z : S (d_size s) < capacity s).
    { pose proof (F (k :: map fst (elements s))) as Z. cbn [fst snd length] in Z. rewrite map_length, elements_size in Z. apply Z.
      - constructor; [|now apply elements_keys]. intros Hk. apply in_map_iff in Hk. destruct Hk as ([x v] & E & Hk). cbn in E. subst x. apply elements_in in Hk. destruct Hk as (i & Li & E). apply (N i Li). unfold keyat. now rewrite E.
      - intros x Hx. cbn [spec_step]. destruct (Nat.eqb_spec x k) as [|Ne]; [discriminate|]. destruct Hx as [<-|Hx]; [contradiction|].
        apply in_map_iff in Hx. destruct Hx as ([y v] & E & Hx). cbn in E. subst y. apply R in Hx. congruence. }
    destruct (insert_repr dflt s m k f e I R N Z Le Lv P) as (A & B). eexists. split; [reflexivity|]. auto.
Qed.

(** ** Theorem: the map of fixed size *)
(** As long as there are fewer keys than the capacity at any time, all operations
    and searches end, and the map behaves like a finite map. *)
Theorem C93_map n l : (forall l1 l2, l = l1 ++ l2 -> fits (fx_spec (2 ^ Nat.log2_up n) l1)) ->
  exists s, fx_run n l = Some s /\ capacity s = fst (fx_spec (2 ^ Nat.log2_up n) l) /\
  (forall k, find s k <> None /\ lookup s k = snd (fx_spec (2 ^ Nat.log2_up n) l) k) /\
  (forall k v, In (k, v) (elements s) <-> snd (fx_spec (2 ^ Nat.log2_up n) l) k = Some v) /\ NoDup (map fst (elements s)) /\ d_size s = length (elements s).
Proof.
  intros F. assert (G : exists s, fx_run n l = Some s /\ inv s /\ repr s (snd (fx_spec (2 ^ Nat.log2_up n) l)) /\ capacity s = fst (fx_spec (2 ^ Nat.log2_up n) l)).
  { unfold fx_run, fx_spec in *. assert (G : forall l s st, (forall l1 l2, l = l1 ++ l2 -> fits (fold_left fx_spec_step l1 st)) -> inv s -> repr s (snd st) -> capacity s = fst st ->
      exists t, fold_left fx_step l (Some s) = Some t /\ inv t /\ repr t (snd (fold_left fx_spec_step l st)) /\ capacity t = fst (fold_left fx_spec_step l st)).
    { clear l F. induction l as [|o l IH]; intros s [c m] F I R C; cbn [fold_left fst snd] in *; [exists s; auto|].
      assert (F1 : fits (fx_spec_step (c, m) o)) by (apply (F [o] l); reflexivity).
      assert (F2 : forall l1 l2, l = l1 ++ l2 -> fits (fold_left fx_spec_step l1 (fx_spec_step (c, m) o))) by (intros l1 l2 ->; apply (F (o :: l1) l2); reflexivity).
      destruct o as [k f| |n']; cbn [fx_step].
      - destruct (fx_access_spec s m k f I R) as (t & -> & It & Rt & Ct); [rewrite C; exact F1|]. apply IH; auto. cbn. congruence.
      - apply IH; auto; [now apply clear_inv|]. intros k v. cbn. split; [intros []|discriminate].
      - apply IH; auto; unfold fx_setmax; cbn [fx_spec_step]; rewrite C; destruct (c <? n'); auto using init_inv, empty_repr. }
    apply G; auto using init_inv, empty_repr. }
  destruct G as (s & E & I & R & C). exists s. split; auto. split; auto. split; [intros k; now apply lookup_repr|]. split; [exact R|].
  split; [now apply elements_keys|symmetry; apply elements_size].
Qed.
End Model.

(** ** Theorem: a full table *)
(** With as many keys as the capacity, searching for another key never ends
    (capacity 2, keys 0 and 1, search for 2). *)
Definition fullops : list (fop (V := nat)) := [FAccess 0 (fun v => v); FAccess 1 (fun v => v)].
Theorem C93_refuted_full : exists s, fx_run 0 2 fullops = Some s /\ elements s = [(0, 0); (1, 0)] /\ capacity s = 2 /\
  forall fuel, probe s 2 fuel (Nat.land 2 (capacity s - 1)) = None.
Proof.
  eexists. split; [reflexivity|]. split; [reflexivity|]. split; [reflexivity|].
  intros fuel. match goal with |- probe ?s _ _ _ = _ => assert (G : forall fuel h, h < 2 -> probe s 2 fuel h = None) end; [|apply G; cbn; lia].
  clear fuel. induction fuel as [|fuel IH]; intros h Lh; [reflexivity|]. destruct h as [|[|h]]; [| |lia]; cbn; apply IH; cbn; lia.
Qed.
(** *** Checking the number of keys *)
Definition fitsb {V} (u : list nat) (st : nat * (nat -> option V)) : bool := length (filter (fun k => match snd st k with Some _ => true | None => false end) u) <? fst st.
Lemma fitsb_sound {V} u (st : nat * (nat -> option V)) : (forall k, snd st k <> None -> In k u) -> fitsb u st = true -> fits st.
Proof.
  intros S B ks N K. apply Nat.ltb_lt in B. eapply Nat.le_lt_trans; [|exact B]. apply NoDup_incl_length; auto.
  intros k Hk. apply filter_In. split; [apply S; auto|]. specialize (K k Hk). destruct (snd st k); [reflexivity|congruence].
Qed.
Lemma spec_keys {V} (d : V) l : forall st k, snd (fold_left (fx_spec_step d) l st) k <> None -> snd st k <> None \/ exists f, In (FAccess k f) l.
Proof.
  induction l as [|o l IH]; intros [c m] k; cbn [fold_left]; [auto|]. intros X. apply IH in X. destruct X as [X|(f & X)]; [|right; exists f; now right].
  destruct o as [k' f| |n]; cbn in *.
    destruct (k =? k') eqn:E; [|auto]. apply Nat.eqb_eq in E. right. exists f. left. now rewrite E.
  - congruence.
  - revert X. change (snd (if c <? n then (2 ^ Nat.log2_up n, fun _ : nat => None) else (c, m)) k <> @None V -> snd (c, m) k <> None \/ exists f, In (FAccess k f) (FSetMax n :: l)). destruct (c <? n); cbn [snd]; [congruence|auto].
Qed.
(** A concrete case with a collision, a change of the size and clear. *)
Definition fxops : list (fop (V := nat)) := [FAccess 3 inc_; FAccess 7 inc_; FAccess 3 inc_; FSetMax 4; FAccess 7 inc_; FSetMax 5; FAccess 7 inc_; FAccess 15 inc_; FClear; FAccess 15 inc_; FAccess 23 inc_; FAccess 23 inc_].
Theorem C93_example : (match fx_run 0 3 fxops with Some s => Some (capacity s, elements s, map (find s) [7; 15; 23]) | None => None end) =
  Some (8, [(15, 1); (23, 2)], [Some (Free 1); Some (Found 7); Some (Found 0)]) /\
  (forall l1 l2, fxops = l1 ++ l2 -> fits (fx_spec 0 (2 ^ Nat.log2_up 3) l1)).
Proof.
  split; [vm_compute; reflexivity|].
  assert (Ch : forallb (fun j => fitsb [3; 7; 15; 23] (fx_spec 0 4 (firstn j fxops))) (seq 0 13) = true) by (vm_compute; reflexivity).
  rewrite forallb_forall in Ch. intros l1 l2 E. change (2 ^ Nat.log2_up 3) with 4.
  assert (T : l1 = firstn (length l1) fxops) by (rewrite E, firstn_app, Nat.sub_diag, firstn_all, app_nil_r; reflexivity).
  assert (L : length l1 < 13) by (apply (f_equal (@length _)) in E; rewrite app_length in E; cbn in E; lia).
  apply (fitsb_sound [3; 7; 15; 23]).
  - intros k Hk. apply (spec_keys 0 l1 (4, fun _ => None)) in Hk. destruct Hk as [Hk|Hk]; [cbn in Hk; congruence|].
    destruct Hk as (f & Hk). assert (Hk2 : In (FAccess k f) fxops) by (rewrite E; apply in_or_app; now left). clear - Hk2. rename Hk2 into Hk.
    cbn in Hk |- *. repeat (destruct Hk as [Hk|Hk]; [try discriminate; injection Hk as <- _; auto 6|]); destruct Hk.
  - rewrite T. apply Ch. apply in_seq. lia.
Qed.
Print Assumptions C93_map.
