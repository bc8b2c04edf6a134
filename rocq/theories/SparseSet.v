(** The sparse map over a fixed universe (Briggs and Torczon), in uninitialised memory.

    /repo/mt-kahypar/datastructures/sparse_map.h:50-178 (SparseMapBase) and 181-252
    (SparseMap).  The memory of both arrays comes from the memory pool and is not
    initialised (137-150): it has arbitrary contents here.

    Simplifications: integers are unbounded; a value that is read from
    uninitialised memory is some value; writing outside of an array gives [None];
    setMaxSize and freeInternalData are not modelled. *)
From Coq Require Import List Arith Lia Bool ZArith.
From Verif Require Import Base DynMap.
Import ListNotations.
Local Open Scope nat_scope.

Section Model.
Context {V : Type}.
Variable dflt : V.    (* Value() *)
Variable U : nat.     (* max_size *)
Inductive sop := SAccess (key : nat) (f : V -> V) | SAdd (key : nat) (v : V) | SRemove (key : nat) | SClear.

(** ** Specification *)
Definition key_ok (o : sop) : Prop := match o with SAccess k _ | SAdd k _ | SRemove k => k < U | SClear => True end.
Definition s_spec_step (m : nat -> option V) (o : sop) : nat -> option V :=
  match o with
  | SAccess k f => fun x => if x =? k then Some (f (match m k with Some v => v | None => dflt end)) else m x
  | SAdd k v => fun x => if x =? k then Some (match m k with Some w => w | None => v end) else m x
  | SRemove k => fun x => if x =? k then None else m x
  | SClear => fun _ => None
  end.
Definition s_spec (l : list sop) : nat -> option V := fold_left s_spec_step l (fun _ => None).

(** ** Model *)
Record smap := mkS { m_size : nat; m_sparse : nat -> nat; m_dense : nat -> nat * V }.
(** 195-198 containsImpl *)
Definition scontains (s : smap) (key : nat) : bool := (m_sparse s key <? m_size s) && (fst (m_dense s (m_sparse s key)) =? key).
(** 96-99, 201-206: a new entry *)
Definition snew (s : smap) (key : nat) (v : V) : option smap :=
  if (m_size s <? U) && (key <? U) then Some (mkS (S (m_size s)) (upd (m_sparse s) key (m_size s)) (upd (m_dense s) (m_size s) (key, v))) else None.
(** 93-103 operator[]; the value is then replaced by [f] of it *)
Definition sset (s : smap) (i : nat) (f : V -> V) : smap := mkS (m_size s) (m_sparse s) (upd (m_dense s) i (fst (m_dense s i), f (snd (m_dense s i)))).
Definition saccess (s : smap) (key : nat) (f : V -> V) : option smap :=
  if scontains s key then Some (sset s (m_sparse s key) f)
  else match snew s key dflt with Some t => Some (sset t (m_size t - 1) f) | None => None end.
(** 200-206 addImpl *)
Definition sadd (s : smap) (key : nat) (v : V) : option smap := if scontains s key then Some s else snew s key v.
(** 186-193 remove *)
Definition sremove (s : smap) (key : nat) : option smap :=
  let index := m_sparse s key in
  if (index <? m_size s) && (fst (m_dense s index) =? key)
  then let dense := upd (upd (m_dense s) index (m_dense s (m_size s - 1))) (m_size s - 1) (m_dense s index) in
       Some (mkS (m_size s - 1) (upd (m_sparse s) (fst (dense index)) index) dense)
  else Some s.
(** 208-210 *)
Definition sclear (s : smap) : smap := mkS 0 (m_sparse s) (m_dense s).
Definition sstep (s : option smap) (o : sop) : option smap :=
  match s with
  | Some s => match o with SAccess k f => saccess s k f | SAdd k v => sadd s k v | SRemove k => sremove s k | SClear => Some (sclear s) end
  | None => None
  end.
(** [sparse0], [dense0]: the contents of the memory *)
Definition srun (sparse0 : nat -> nat) (dense0 : nat -> nat * V) (l : list sop) : option smap := fold_left sstep l (Some (mkS 0 sparse0 dense0)).
Definition selements (s : smap) : list (nat * V) := map (m_dense s) (seq 0 (m_size s)).
(** 110-118 getOrDefault *)
Definition sget (s : smap) (key : nat) : V := if scontains s key then snd (m_dense s (m_sparse s key)) else dflt.

(** ** Proofs *)
Record sinv (s : smap) : Prop := {
  x_back : forall i, i < m_size s -> m_sparse s (fst (m_dense s i)) = i;
  x_key : forall i, i < m_size s -> fst (m_dense s i) < U
}.
Definition srepr (s : smap) (m : nat -> option V) : Prop := forall k v, m k = Some v <-> exists i, i < m_size s /\ m_dense s i = (k, v).
Lemma sinj s i j : sinv s -> i < m_size s -> j < m_size s -> fst (m_dense s i) = fst (m_dense s j) -> i = j.
Proof. intros I Li Lj E. rewrite <- (x_back _ I i Li), <- (x_back _ I j Lj). now rewrite E. Qed.
Lemma skeys s : sinv s -> NoDup (map fst (selements s)).
Proof. intros I. unfold selements. rewrite map_map. apply nodup_map_in; [|apply seq_NoDup]. intros x y Hx Hy E. apply in_seq in Hx, Hy. apply (sinj s); auto; lia. Qed.
Lemma scontains_spec s m k : sinv s -> srepr s m ->
  if scontains s k then m_sparse s k < m_size s /\ m k = Some (snd (m_dense s (m_sparse s k))) /\ fst (m_dense s (m_sparse s k)) = k
  else m k = None /\ forall i, i < m_size s -> fst (m_dense s i) <> k.
Proof.
  intros I R. unfold scontains. destruct (Nat.ltb_spec (m_sparse s k) (m_size s)) as [L|L]; cbn [andb].
  - destruct (Nat.eqb_spec (fst (m_dense s (m_sparse s k))) k) as [E|E].
    + split; auto. split; auto. apply R. exists (m_sparse s k). split; auto. rewrite <- E at 2. now destruct (m_dense s (m_sparse s k)).
    + assert (N : forall i, i < m_size s -> fst (m_dense s i) <> k).
      { intros i Li F. apply E. pose proof (x_back _ I i Li) as B. rewrite F in B. now rewrite B. }
      split; auto. destruct (m k) as [v|] eqn:Mk; auto. apply R in Mk. destruct Mk as (i & Li & F). exfalso. apply (N i Li). now rewrite F.
  - assert (N : forall i, i < m_size s -> fst (m_dense s i) <> k).
    { intros i Li F. pose proof (x_back _ I i Li) as B. rewrite F in B. lia. }
    split; auto. destruct (m k) as [v|] eqn:Mk; auto. apply R in Mk. destruct Mk as (i & Li & F). exfalso. apply (N i Li). now rewrite F.
Qed.
Lemma slen s : length (map fst (selements s)) = m_size s.
Proof. unfold selements. now rewrite !map_length, seq_length. Qed.
Lemma sroom s k : sinv s -> k < U -> (forall i, i < m_size s -> fst (m_dense s i) <> k) -> m_size s < U.
Proof.
  intros I Lk N. pose proof (NoDup_incl_length (l := k :: map fst (selements s)) (l' := seq 0 U)) as X. cbn [length] in X.
  rewrite slen, seq_length in X. apply X.
  - constructor; [|now apply skeys]. unfold selements. rewrite map_map. intros Hk. apply in_map_iff in Hk. destruct Hk as (i & E & Hi). apply in_seq in Hi. apply (N i); auto. lia.
  - intros x [<-|Hx]; [apply in_seq; lia|]. unfold selements in Hx. rewrite map_map in Hx. apply in_map_iff in Hx. destruct Hx as (i & <- & Hi). apply in_seq in Hi. apply in_seq. pose proof (x_key _ I i ltac:(lia)). lia.
Qed.
Lemma snew_spec s m k v : sinv s -> srepr s m -> k < U -> m k = None -> (forall i, i < m_size s -> fst (m_dense s i) <> k) ->
  exists t, snew s k v = Some t /\ sinv t /\ srepr t (fun x => if x =? k then Some v else m x) /\ m_size t = S (m_size s) /\ m_dense t (m_size s) = (k, v).
Proof.
  intros I R Lk Mk N. pose proof (sroom s k I Lk N) as Z. unfold snew. rewrite (proj2 (Nat.ltb_lt _ _) Z), (proj2 (Nat.ltb_lt _ _) Lk). cbn [andb]. eexists. split; [reflexivity|].
  split; [constructor; cbn [m_size m_sparse m_dense]|split; [|split; [reflexivity|apply upd_same]]].
  - intros i Li. destruct (Nat.eq_dec i (m_size s)) as [->|Ne]; [rewrite upd_same; cbn [fst]; apply upd_same|]. rewrite (upd_other (m_dense s)) by auto. rewrite upd_other by (apply N; lia). apply (x_back _ I). lia.
  - intros i Li. destruct (Nat.eq_dec i (m_size s)) as [->|Ne]; [rewrite upd_same; exact Lk|]. rewrite upd_other by auto. apply (x_key _ I). lia.
  - intros x w. cbn [m_size m_dense]. destruct (Nat.eqb_spec x k) as [->|Ne].
    + split.
      * intros E. injection E as <-. exists (m_size s). split; [lia|apply upd_same].
      * intros (i & Li & E). destruct (Nat.eq_dec i (m_size s)) as [->|Ni]; [rewrite upd_same in E; congruence|]. rewrite upd_other in E by auto. exfalso. apply (N i); [lia|now rewrite E].
    + rewrite (R x w). split; intros (i & Li & E).
      * exists i. split; [lia|]. rewrite upd_other by lia. exact E.
      * destruct (Nat.eq_dec i (m_size s)) as [->|Ni]; [rewrite upd_same in E; congruence|]. rewrite upd_other in E by auto. exists i. split; [lia|exact E].
Qed.
Lemma sset_spec s m i f : sinv s -> srepr s m -> i < m_size s -> sinv (sset s i f) /\ srepr (sset s i f) (fun x => if x =? fst (m_dense s i) then Some (f (snd (m_dense s i))) else m x).
Proof.
  intros I R Li. assert (K : forall j, fst (m_dense (sset s i f) j) = fst (m_dense s j)).
  { intros j. cbn. unfold upd. destruct (Nat.eqb_spec j i) as [->|]; reflexivity. }
  split.
  - constructor; intros j Lj; rewrite K; [apply (x_back _ I)|apply (x_key _ I)]; exact Lj.
  - intros x w. change (m_size (sset s i f)) with (m_size s). destruct (Nat.eqb_spec x (fst (m_dense s i))) as [->|Ne].
    + split.
      * intros E. injection E as <-. exists i. split; auto. cbn. apply upd_same.
      * intros (j & Lj & E). assert (j = i) as -> by (apply (sinj s); auto; rewrite <- K, E; reflexivity). cbn in E. rewrite upd_same in E. congruence.
    + rewrite (R x w). split; intros (j & Lj & E); exists j; split; auto; destruct (Nat.eq_dec j i) as [->|Nj].
      * exfalso. apply Ne. now rewrite E.
      * cbn. now rewrite upd_other.
      * exfalso. apply Ne. cbn in E. rewrite upd_same in E. congruence.
      * cbn in E. now rewrite upd_other in E.
Qed.
Lemma srepr_ext s m m' : (forall x, m x = m' x) -> srepr s m -> srepr s m'.
Proof. intros E R k v. rewrite <- E. apply R. Qed.
Lemma sremove_spec s m k : sinv s -> srepr s m -> exists t, sremove s k = Some t /\ sinv t /\ srepr t (fun x => if x =? k then None else m x).
Proof.
  intros I R. unfold sremove. pose proof (scontains_spec s m k I R) as C. unfold scontains in C. destruct ((m_sparse s k <? m_size s) && (fst (m_dense s (m_sparse s k)) =? k)).
  - destruct C as (L & _ & K). set (i := m_sparse s k) in *. eexists. split; [reflexivity|]. set (n := m_size s - 1).
    set (D := upd (upd (m_dense s) i (m_dense s n)) n (m_dense s i)).
    assert (DV : forall j, j < n -> D j = if j =? i then m_dense s n else m_dense s j).
    { intros j Lj. unfold D. rewrite upd_other by lia. unfold upd. reflexivity. }
    assert (Di : D i = m_dense s n). { unfold D, upd. destruct (Nat.eqb_spec i n) as [->|]; [reflexivity|]. now rewrite Nat.eqb_refl. }
    assert (SRC : forall j, j < n -> exists q, q < m_size s /\ q <> i /\ D j = m_dense s q /\ (j = i /\ q = n \/ j <> i /\ q = j)).
    { intros j Lj. rewrite (DV j Lj). destruct (Nat.eqb_spec j i) as [->|Ne].
      - exists n. subst n. repeat split; auto; try lia.
      - exists j. repeat split; auto. lia. }
    split; [constructor; cbn [m_size m_sparse m_dense]|].
    + intros j Lj. destruct (SRC j Lj) as (q & Lq & Nq & E & W). rewrite E, Di. unfold upd. destruct (Nat.eqb_spec (fst (m_dense s q)) (fst (m_dense s n))) as [F|F].
      * apply (sinj s) in F; auto; [|subst n; lia]. destruct W as [(-> & _)|(W & ->)]; [reflexivity|]. lia.
      * destruct W as [(_ & ->)|(_ & ->)]; [congruence|]. apply (x_back _ I). exact Lq.
    + intros j Lj. destruct (SRC j Lj) as (q & Lq & _ & E & _). rewrite E. apply (x_key _ I q Lq).
    + intros x w. cbn [m_size m_dense]. destruct (Nat.eqb_spec x k) as [->|Ne].
      * split; [discriminate|]. intros (j & Lj & E). destruct (SRC j Lj) as (q & Lq & Nq & E2 & _). exfalso. apply Nq. apply (sinj s); auto. rewrite K, <- E2, E. reflexivity.
      * rewrite (R x w). split; intros (j & Lj & E).
        -- assert (Nj : j <> i) by (intros ->; rewrite E in K; cbn in K; congruence). destruct (Nat.eq_dec j n) as [->|Nn].
           ++ exists i. split; [subst n; lia|]. rewrite Di. exact E.
           ++ exists j. split; [subst n; lia|]. rewrite DV by (subst n; lia). destruct (Nat.eqb_spec j i); [contradiction|exact E].
        -- destruct (SRC j Lj) as (q & Lq & _ & E2 & _). exists q. split; auto. congruence.
  - destruct C as (Mk & _). eexists. split; [reflexivity|]. split; auto. apply (srepr_ext _ m); auto. intros x. destruct (Nat.eqb_spec x k) as [->|]; auto.
Qed.
Lemma sstep_spec s m o : sinv s -> srepr s m -> key_ok o -> exists t, sstep (Some s) o = Some t /\ sinv t /\ srepr t (s_spec_step m o).
Proof.
  intros I R K. destruct o as [k f|k v|k|]; cbn [sstep s_spec_step key_ok] in *.
  - unfold saccess. pose proof (scontains_spec s m k I R) as C. destruct (scontains s k).
    + destruct C as (L & Mk & E). eexists. split; [reflexivity|]. destruct (sset_spec s m (m_sparse s k) f I R L) as (A & B). split; auto.
      apply (srepr_ext _ _ _ (fun x => eq_refl)) in B. rewrite E in B. rewrite Mk. exact B.
    + destruct C as (Mk & N). destruct (snew_spec s m k dflt I R K Mk N) as (t & -> & It & Rt & St & Dt). eexists. split; [reflexivity|].
      replace (m_size t - 1) with (m_size s) by lia. destruct (sset_spec t _ (m_size s) f It Rt ltac:(lia)) as (A & B). split; auto. rewrite Dt in B. cbn [fst snd] in B.
      refine (srepr_ext _ _ _ _ B). intros x. rewrite Mk. destruct (x =? k); reflexivity.
  - unfold sadd. pose proof (scontains_spec s m k I R) as C. destruct (scontains s k).
    + destruct C as (L & Mk & E). exists s. split; auto. split; auto. apply (srepr_ext _ m); auto. intros x. destruct (Nat.eqb_spec x k) as [->|]; [rewrite Mk|]; auto.
    + destruct C as (Mk & N). destruct (snew_spec s m k v I R K Mk N) as (t & -> & It & Rt & St & Dt). exists t. split; auto. split; auto. rewrite Mk. exact Rt.
  - now apply sremove_spec.
  - exists (sclear s). split; auto. split; [constructor; cbn; lia|]. intros k v. cbn. split; [discriminate|]. intros (i & Li & _). lia.
Qed.

(** ** Theorem: the sparse map *)
(** Whatever the memory contains at the beginning, after every sequence of
    operations with keys below max_size: no write is outside of the arrays; exactly
    the keys of the map are contained, with their values; the iteration visits
    every entry exactly once; size() is the number of entries. *)
Theorem C94_map sparse0 dense0 l : Forall key_ok l -> exists s, srun sparse0 dense0 l = Some s /\
  (forall k, scontains s k = match s_spec l k with Some _ => true | None => false end) /\
  (forall k, sget s k = match s_spec l k with Some v => v | None => dflt end) /\
  (forall k v, In (k, v) (selements s) <-> s_spec l k = Some v) /\ NoDup (map fst (selements s)) /\
  m_size s = length (selements s) /\ m_size s <= U.
Proof.
  intros F. assert (G : exists s, srun sparse0 dense0 l = Some s /\ sinv s /\ srepr s (s_spec l)).
  { unfold srun, s_spec. assert (G : forall s m, sinv s -> srepr s m -> exists t, fold_left sstep l (Some s) = Some t /\ sinv t /\ srepr t (fold_left s_spec_step l m)).
    { induction F as [|o l Ko F IH]; intros s m I R; cbn [fold_left]; [exists s; auto|]. destruct (sstep_spec s m o I R Ko) as (t & E & It & Rt). rewrite E. apply IH; auto. }
    apply G; [constructor; cbn; lia|]. intros k v. cbn. split; [discriminate|]. intros (i & Li & _). lia. }
  destruct G as (s & E & I & R). exists s. split; auto.
  split; [|split; [|split; [|split; [now apply skeys|split; [unfold selements; now rewrite map_length, seq_length|]]]]].
  - intros k. pose proof (scontains_spec s _ k I R) as C. destruct (scontains s k); [destruct C as (_ & -> & _)|destruct C as (-> & _)]; reflexivity.
  - intros k. unfold sget. pose proof (scontains_spec s _ k I R) as C. destruct (scontains s k); [destruct C as (_ & -> & _)|destruct C as (-> & _)]; reflexivity.
  - intros k v. rewrite (R k v). unfold selements. rewrite in_map_iff. split; intros (i & A & B); exists i; rewrite ?in_seq in *; split; auto; lia.
  - pose proof (NoDup_incl_length (l := map fst (selements s)) (l' := seq 0 U) (skeys s I)) as X. rewrite slen, seq_length in X. apply X.
    intros x Hx. unfold selements in Hx. rewrite map_map in Hx. apply in_map_iff in Hx. destruct Hx as (i & <- & Hi). apply in_seq in Hi. apply in_seq. pose proof (x_key _ I i ltac:(lia)). lia.
Qed.
(** Iteration is in the order of insertion as long as nothing is removed. *)
Theorem C94_order s t k f : saccess s k f = Some t -> sinv s -> exists rest, map fst (selements t) = map fst (selements s) ++ rest /\ (rest = [] \/ rest = [k]).
Proof.
  assert (ST : forall s0 i, map fst (selements (sset s0 i f)) = map fst (selements s0)).
  { intros s0 i. unfold selements. rewrite !map_map. apply map_ext_in. intros j _. cbn. unfold upd. destruct (Nat.eqb_spec j i) as [->|]; reflexivity. }
  intros E I. unfold saccess in E. destruct (scontains s k); [injection E as <-; exists []; rewrite ST, app_nil_r; auto|].
  unfold snew in E. destruct ((m_size s <? U) && (k <? U)); [|discriminate]. injection E as <-. exists [k]. rewrite ST. split; auto.
  unfold selements. cbn [m_size m_dense]. rewrite seq_S, map_app, map_app. cbn [map Nat.add]. f_equal.
  - f_equal. apply map_ext_in. intros j Hj. apply in_seq in Hj. apply upd_other. lia.
  - now rewrite upd_same.
Qed.
End Model.

(** ** A concrete case: garbage in the memory, removal of an inner, the last and a missing key *)
Definition sxops : list (sop (V := nat)) := [SAdd 4 10; SAccess 2 inc_; SAdd 0 7; SAdd 4 99; SRemove 4; SRemove 3; SAccess 0 inc_; SRemove 2; SClear; SAccess 1 inc_; SAdd 3 5; SRemove 3].
Theorem C94_example : (match srun 0 5 (fun i => i mod 3) (fun i => (4 - i, 42)) sxops with Some s => Some (selements s, map (scontains s) (seq 0 5)) | None => None end) =
    Some ([(1, 1)], [false; true; false; false; false]) /\
  (match srun 0 5 (fun i => i mod 3) (fun i => (4 - i, 42)) (firstn 7 sxops) with Some s => Some (selements s) | None => None end) = Some [(0, 8); (2, 1)] /\
  Forall (key_ok 5) sxops.
Proof. split; [vm_compute; reflexivity|]. split; [vm_compute; reflexivity|]. repeat constructor; cbn; lia. Qed.

(** ** The memory of both arrays *)
(** 137-150 allocate_data: the number of requested units of sizeof(size_t) = 8
    bytes, where [e] is the size of an element of the dense array *)
Definition num_elements (e max_size : nat) : nat := (max_size * e + max_size * 8) / 8.
(** The sparse array (8 bytes per entry) followed by the dense array fits into the
    requested memory exactly if the size of the dense array is a multiple of 8
    (it is for all elements in use: 8 or 16 bytes). *)
Theorem C94_memory e max_size : max_size * 8 + max_size * e <= 8 * num_elements e max_size <-> (max_size * e) mod 8 = 0.
Proof.
  unfold num_elements. rewrite Nat.div_add by lia. pose proof (Nat.div_mod (max_size * e) 8 ltac:(lia)) as D. pose proof (Nat.mod_upper_bound (max_size * e) 8 ltac:(lia)). lia.
Qed.
(** It is refuted in general: elements of 12 bytes (a 4-byte key and an 8-byte
    value with the alignment of 4 bytes) do not fit for one key. *)
Theorem C94_refuted_memory : ~ (1 * 8 + 1 * 12 <= 8 * num_elements 12 1) /\ 5 * 8 + 5 * 16 <= 8 * num_elements 16 5.
Proof. vm_compute. lia. Qed.
Print Assumptions C94_map.
