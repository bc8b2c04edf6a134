(** ConSet.v - bit level model of ConnectivitySets (mt-kahypar/datastructures/connectivity_set.h) and of the
    iterator / isSet of StaticBitset (static_bitset.h).
    64-bit blocks are integers in [0,2^64); accesses outside the allocated array yield [None].  Each operation is
    one atomic word access per word, so a concurrent execution is a sequence of these operations. *)
From Verif Require Import Base.

(** Members connectivity_set.h:184-187; _bits has num_hyperedges * nb + 1 words (:87-91). *)
Record conset := mkCS { c_nb : Z; c_size : Z; c_arr : Z -> Z }.
Definition cs_init (ne k : Z) : conset :=
  let nb := k / 64 + (if k mod 64 =? 0 then 0 else 1) in mkCS nb (ne * nb + 1) (fun _ => 0).

Definition cs_load (s : conset) (pos : Z) : option Z :=
  if (0 <=? pos) && (pos <? c_size s) then Some (c_arr s pos) else None.

(** toggle, connectivity_set.h:172-179; add :102-104, remove :106-108. *)
Definition cs_toggle (s : conset) (he p : Z) : option conset :=
  let idx := he * c_nb s + p / 64 in
  match cs_load s idx with
  | None => None
  | Some w => Some (mkCS (c_nb s) (c_size s) (fun j => if j =? idx then Z.lxor w (Z.shiftl 1 (p mod 64)) else c_arr s j))
  end.

(** contains :110-115. *)
Definition cs_contains (s : conset) (he p : Z) : option bool :=
  match cs_load s (he * c_nb s + p / 64) with
  | None => None
  | Some w => Some (negb (Z.land w (Z.shiftl 1 (p mod 64)) =? 0))
  end.

(** clear :118-124 (stores 0 to the words start..end-1), reset :126-136. *)
Definition cs_clear (s : conset) (he : Z) : option conset :=
  if (0 <=? he * c_nb s) && ((he + 1) * c_nb s <=? c_size s)
  then Some (mkCS (c_nb s) (c_size s) (fun j => if (he * c_nb s <=? j) && (j <? (he + 1) * c_nb s) then 0 else c_arr s j))
  else None.
Definition cs_reset (s : conset) : conset := mkCS (c_nb s) (c_size s) (fun j => if (0 <=? j) && (j <? c_size s) then 0 else c_arr s j).

(** popcount_64 / lowest_set_bit_64, utils/bit_ops.h:34-41. *)
Definition popcount64 (w : Z) : Z := countb 64 (fun i => Z.testbit w (Z.of_nat i)).
Definition ctz64 (w : Z) : Z := match find (fun i => Z.testbit w (Z.of_nat i)) (seq 0 64) with Some i => Z.of_nat i | None => 64 end.

(** connectivity :138-146. *)
Fixpoint cs_popcounts (s : conset) (pos : Z) (n : nat) (acc : Z) : option Z :=
  match n with
  | O => Some acc
  | S n' => match cs_load s pos with None => None | Some w => cs_popcounts s (pos + 1) n' (acc + popcount64 w) end
  end.
Definition cs_connectivity (s : conset) (he : Z) : option Z := cs_popcounts s (he * c_nb s) (Z.to_nat (c_nb s)) 0.

(** OneBitIterator::nextBlockID, static_bitset.h:92-110.  [base] is the word offset of the hyperedge. *)
Fixpoint next_loop (fuel : nat) (s : conset) (base maxid cur : Z) : option (Z * Z) :=
  match fuel with
  | O => None
  | S f =>
    if cur <? maxid then
      match cs_load s (base + cur / 64) with
      | None => None
      | Some b => if Z.shiftr b (cur mod 64) =? 0 then next_loop f s base maxid (cur + (64 - cur mod 64)) else Some (cur, b)
      end
    else Some (cur, 0)
  end.
Definition nextBlockID (s : conset) (base maxid cur : Z) : option Z :=
  match next_loop (Z.to_nat (c_nb s) + 1) s base maxid (cur + 1) with
  | None => None
  | Some (c, b) => if c =? maxid then Some maxid else Some (c + ctz64 (Z.max (Z.shiftr b (c mod 64)) 1))
  end.

(** for (p : connectivitySet(he)), connectivity_set.h:95-100.  The offset he * _num_blocks_per_hyperedge is the
    product of a uint32 and an int, i.e. it is computed modulo 2^32 (unlike in the other functions). *)
Fixpoint collect (fuel : nat) (s : conset) (base maxid cur : Z) : option (list Z) :=
  match fuel with
  | O => None
  | S f => if cur =? maxid then Some []
           else match nextBlockID s base maxid cur with
                | None => None
                | Some c => match collect f s base maxid c with None => None | Some r => Some (cur :: r) end
                end
  end.
Definition cs_iterate (s : conset) (he : Z) : option (list Z) :=
  let base := (he * c_nb s) mod 2 ^ 32 in
  let maxid := c_nb s * 64 in
  match nextBlockID s base maxid (-1) with
  | None => None
  | Some c => collect (Z.to_nat maxid + 1) s base maxid c
  end.

(** shallowCopy(he).isSet(p): connectivity_set.h:149-154, static_bitset.h:159-164. *)
Definition cs_isSet (s : conset) (he p : Z) : option bool :=
  match cs_load s (he * c_nb s + p / 64) with
  | None => None
  | Some w => Some (negb (Z.land (Z.shiftr w (p mod 64)) 1 =? 0))
  end.

Inductive cs_op := CAdd (e b : Z) | CRemove (e b : Z) | CClear (e : Z) | CReset
  | CContains (e b : Z) | CIsSet (e b : Z) | CCard (e : Z) | CIter (e : Z).
Definition b2l (b : bool) : list Z := [Z.b2z b].
Definition cs_step (s : conset) (o : cs_op) : option (conset * list Z) :=
  match o with
  | CAdd e b | CRemove e b => match cs_toggle s e b with Some s' => Some (s', []) | None => None end
  | CClear e => match cs_clear s e with Some s' => Some (s', []) | None => None end
  | CReset => Some (cs_reset s, [])
  | CContains e b => match cs_contains s e b with Some r => Some (s, b2l r) | None => None end
  | CIsSet e b => match cs_isSet s e b with Some r => Some (s, b2l r) | None => None end
  | CCard e => match cs_connectivity s e with Some n => Some (s, [n]) | None => None end
  | CIter e => match cs_iterate s e with Some l => Some (s, l) | None => None end
  end.
Fixpoint cs_run (s : conset) (l : list cs_op) : option (conset * list (list Z)) :=
  match l with
  | [] => Some (s, [])
  | o :: r => match cs_step s o with
              | None => None
              | Some (s', v) => match cs_run s' r with None => None | Some (s'', vs) => Some (s'', v :: vs) end
              end
  end.

(** ---- specification: one finite set of blocks per hyperedge ---- *)
Definition sets := Z -> Z -> bool.
Definition upd_set (A : sets) (e b : Z) (v : bool) : sets := fun e' b' => if (e' =? e) && (b' =? b) then v else A e' b'.
Definition zrange (k : Z) : list Z := map Z.of_nat (seq 0 (Z.to_nat k)).
(** The elements of the set of [e] in increasing order. *)
Definition elements (k : Z) (A : sets) (e : Z) : list Z := filter (A e) (zrange k).
Definition set_step (ne k : Z) (A : sets) (o : cs_op) : option (sets * list Z) :=
  let oke := fun e => (0 <=? e) && (e <? ne) in
  let ok := fun e b => (0 <=? e) && (e <? ne) && (0 <=? b) && (b <? k) in
  match o with
  | CAdd e b => if ok e b && negb (A e b) then Some (upd_set A e b true, []) else None
  | CRemove e b => if ok e b && A e b then Some (upd_set A e b false, []) else None
  | CClear e => if oke e then Some (fun e' b' => if e' =? e then false else A e' b', []) else None
  | CReset => Some (fun _ _ => false, [])
  | CContains e b | CIsSet e b => if ok e b then Some (A, b2l (A e b)) else None
  | CCard e => if oke e then Some (A, [Z.of_nat (length (elements k A e))]) else None
  | CIter e => if oke e && (e * ((k + 63) / 64) <? 2 ^ 32) then Some (A, elements k A e) else None
  end.
Fixpoint set_run (ne k : Z) (A : sets) (l : list cs_op) : option (sets * list (list Z)) :=
  match l with
  | [] => Some (A, [])
  | o :: r => match set_step ne k A o with
              | None => None
              | Some (A', v) => match set_run ne k A' r with None => None | Some (A'', vs) => Some (A'', v :: vs) end
              end
  end.

(** ---- proofs ---- *)
Lemma nb_ceil k : 0 <= k -> k / 64 + (if k mod 64 =? 0 then 0 else 1) = (k + 63) / 64.
Proof.
  intros Hk. pose proof (Z.div_mod k 64 ltac:(lia)). pose proof (Z.mod_pos_bound k 64 ltac:(lia)).
  destruct (Z.eqb_spec (k mod 64) 0).
  - apply (Z.div_unique _ _ _ 63); lia.
  - apply (Z.div_unique _ _ _ (k mod 64 - 1)); lia.
Qed.

Lemma find_seq_spec (p : nat -> bool) n : forall a,
  match find p (seq a n) with
  | Some i => (a <= i < a + n)%nat /\ p i = true /\ forall j, (a <= j < i)%nat -> p j = false
  | None => forall j, (a <= j < a + n)%nat -> p j = false
  end.
Proof.
  induction n as [|n IH]; intros a; simpl; [intros; lia|].
  destruct (p a) eqn:E.
  - split; [lia|]. split; [exact E|]. intros; lia.
  - specialize (IH (S a)). destruct (find p (seq (S a) n)) as [i|].
    + destruct IH as (A & B & C). split; [lia|]. split; [exact B|]. intros j Hj.
      destruct (Nat.eq_dec j a) as [->|]; [exact E|apply C; lia].
    + intros j Hj. destruct (Nat.eq_dec j a) as [->|]; [exact E|apply IH; lia].
Qed.

Lemma ctz_spec w : 0 < w < 2 ^ 64 ->
  0 <= ctz64 w < 64 /\ Z.testbit w (ctz64 w) = true /\ forall j, 0 <= j < ctz64 w -> Z.testbit w j = false.
Proof.
  intros Hw. unfold ctz64. pose proof (find_seq_spec (fun i => Z.testbit w (Z.of_nat i)) 64 0) as F.
  destruct (find _ _) as [i|].
  - destruct F as (A & B & C). split; [lia|]. split; [exact B|]. intros j Hj.
    specialize (C (Z.to_nat j) ltac:(lia)). rewrite Z2Nat.id in C by lia. exact C.
  - exfalso. assert (E : w = 0); [|lia]. apply Z.bits_inj'. intros j Hj. rewrite Z.bits_0.
    destruct (Z_lt_ge_dec j 64).
    + specialize (F (Z.to_nat j) ltac:(lia)). rewrite Z2Nat.id in F by lia. exact F.
    + apply Z.bits_above_log2; [lia|]. assert (Z.log2 w < 64) by (apply Z.log2_lt_pow2; lia). lia.
Qed.

Lemma word_high w j : 0 <= w < 2 ^ 64 -> 64 <= j -> Z.testbit w j = false.
Proof.
  intros Hw Hj. destruct (Z.eq_dec w 0) as [->|]; [apply Z.bits_0|].
  apply Z.bits_above_log2; [lia|]. assert (Z.log2 w < 64) by (apply Z.log2_lt_pow2; lia). lia.
Qed.
Lemma shiftr_range w i : 0 <= w < 2 ^ 64 -> 0 <= i -> 0 <= Z.shiftr w i < 2 ^ 64.
Proof.
  intros Hw Hi. rewrite Z.shiftr_div_pow2 by lia. split; [apply Z.div_pos; lia|].
  apply Z.div_lt_upper_bound; [lia|]. assert (1 <= 2 ^ i) by lia. nia.
Qed.

(** A contiguous bit vector: bit [c] of the words from [base]. *)
Definition vbit (s : conset) (base c : Z) : bool := Z.testbit (c_arr s (base + c / 64)) (c mod 64).
Definition loadable (s : conset) (base : Z) : Prop :=
  0 <= base /\ base + c_nb s <= c_size s /\ 0 <= c_nb s /\ forall j, base <= j < base + c_nb s -> 0 <= c_arr s j < 2 ^ 64.

Lemma load_ok s base c : loadable s base -> 0 <= c < c_nb s * 64 ->
  cs_load s (base + c / 64) = Some (c_arr s (base + c / 64)) /\ 0 <= c_arr s (base + c / 64) < 2 ^ 64.
Proof.
  intros (H0 & H1 & H2 & H3) Hc. assert (0 <= c / 64) by (apply Z.div_pos; lia).
  assert (c / 64 < c_nb s) by (apply Z.div_lt_upper_bound; lia).
  unfold cs_load. replace (0 <=? base + c / 64) with true by lia. replace (base + c / 64 <? c_size s) with true by lia.
  split; [reflexivity|apply H3; lia].
Qed.

Lemma next_loop_spec s base : loadable s base -> forall fuel cur, 0 <= cur <= c_nb s * 64 ->
  c_nb s * 64 - cur <= 64 * (Z.of_nat fuel - 1) -> (1 <= fuel)%nat ->
  exists c b, next_loop fuel s base (c_nb s * 64) cur = Some (c, b) /\ cur <= c <= c_nb s * 64 /\
    (forall j, cur <= j < c -> vbit s base j = false) /\
    (c = c_nb s * 64 \/ b = c_arr s (base + c / 64) /\ Z.shiftr b (c mod 64) <> 0).
Proof.
  intros HL. induction fuel as [|f IH]; intros cur Hc Hf H1; [lia|]. cbn [next_loop].
  destruct (Z.ltb_spec cur (c_nb s * 64)) as [Hlt|Hge].
  - destruct (load_ok s base cur HL ltac:(lia)) as [EL Hw]. rewrite EL.
    destruct (Z.eqb_spec (Z.shiftr (c_arr s (base + cur / 64)) (cur mod 64)) 0) as [Ez|Enz].
    + pose proof (Z.mod_pos_bound cur 64 ltac:(lia)) as Hm. pose proof (Z.div_mod cur 64 ltac:(lia)) as Hd.
      set (cur' := cur + (64 - cur mod 64)) in *. assert (Hc' : cur' = 64 * (cur / 64 + 1)) by (unfold cur'; lia).
      assert (Hle : cur' <= c_nb s * 64).
      { assert (cur / 64 < c_nb s) by (apply Z.div_lt_upper_bound; lia). lia. }
      (* fuel *)
      assert (Hz : forall j, cur <= j < cur' -> vbit s base j = false).
      { intros j Hj. unfold vbit. assert (Ej : j / 64 = cur / 64).
        { symmetry. apply (Z.div_unique _ _ _ (j - 64 * (cur / 64))); lia. }
        assert (Em : j mod 64 = cur mod 64 + (j - cur)).
        { pose proof (Z.div_mod j 64 ltac:(lia)). lia. }
        rewrite Ej, Em. rewrite (Z.add_comm (cur mod 64)), <- Z.shiftr_spec by lia. rewrite Ez. apply Z.bits_0. }
      destruct (Z.eq_dec cur' (c_nb s * 64)) as [E64|N64].
      * destruct f as [|f]; [lia|].
        exists cur', 0. cbn [next_loop]. replace (cur' <? c_nb s * 64) with false by lia.
        split; [reflexivity|]. split; [lia|]. split; [exact Hz|]. left; exact E64.
      * destruct (IH cur') as (c & b & E & R & Z0 & D); [lia|lia|lia|].
        -- exists c, b. split; [exact E|]. split; [lia|]. split; [|exact D].
           intros j Hj. destruct (Z_lt_ge_dec j cur'); [apply Hz; lia|apply Z0; lia].
    + exists cur, (c_arr s (base + cur / 64)). split; [reflexivity|]. split; [lia|]. split; [intros; lia|]. right. tauto.
  - exists cur, 0. split; [reflexivity|]. split; [lia|]. split; [intros; lia|]. left. lia.
Qed.

Lemma next_spec s base cur : loadable s base -> -1 <= cur < c_nb s * 64 ->
  exists c, nextBlockID s base (c_nb s * 64) cur = Some c /\ cur < c <= c_nb s * 64 /\
    (forall j, cur < j < c -> vbit s base j = false) /\ (c < c_nb s * 64 -> vbit s base c = true).
Proof.
  intros HL Hc. unfold nextBlockID.
  destruct (next_loop_spec s base HL (Z.to_nat (c_nb s) + 1) (cur + 1)) as (c & b & E & R & Z0 & D); [lia|lia|lia|].
  rewrite E. destruct (Z.eqb_spec c (c_nb s * 64)) as [->|Hn].
  - exists (c_nb s * 64). split; [reflexivity|]. split; [lia|]. split; [intros; apply Z0; lia|lia].
  - destruct D as [D|[-> Hb]]; [congruence|].
    destruct (load_ok s base c HL ltac:(lia)) as [_ Hw].
    pose proof (Z.mod_pos_bound c 64 ltac:(lia)) as Hm. pose proof (Z.div_mod c 64 ltac:(lia)) as Hd.
    set (w := c_arr s (base + c / 64)) in *.
    pose proof (shiftr_range w (c mod 64) Hw ltac:(lia)) as Hs.
    rewrite Z.max_l by lia. destruct (ctz_spec (Z.shiftr w (c mod 64)) ltac:(lia)) as (T0 & T1 & T2).
    set (t := ctz64 (Z.shiftr w (c mod 64))) in *.
    assert (Hfit : c mod 64 + t < 64).
    { destruct (Z_lt_ge_dec (c mod 64 + t) 64); [assumption|]. rewrite Z.shiftr_spec in T1 by lia.
      rewrite word_high in T1 by lia. discriminate. }
    assert (V : forall j, 0 <= j -> c mod 64 + j < 64 -> vbit s base (c + j) = Z.testbit (Z.shiftr w (c mod 64)) j).
    { intros j Hj Hj2. unfold vbit. assert (Ej : (c + j) / 64 = c / 64).
      { symmetry. apply (Z.div_unique _ _ _ (c mod 64 + j)); lia. }
      assert (Em : (c + j) mod 64 = c mod 64 + j). { pose proof (Z.div_mod (c + j) 64 ltac:(lia)). lia. }
      rewrite Ej, Em, Z.shiftr_spec by lia. f_equal. lia. }
    exists (c + t). split; [reflexivity|]. split.
    { split; [lia|]. assert (c / 64 < c_nb s) by (apply Z.div_lt_upper_bound; lia). lia. }
    split.
    + intros j Hj. destruct (Z_lt_ge_dec j c); [apply Z0; lia|]. replace j with (c + (j - c)) by lia.
      rewrite V by lia. apply T2. lia.
    + intros _. rewrite V by lia. exact T1.
Qed.

Definition zfrom (a : Z) (n : nat) : list Z := map (fun i => a + Z.of_nat i) (seq 0 n).
Lemma zfrom_S a n : zfrom a (S n) = a :: zfrom (a + 1) n.
Proof.
  unfold zfrom. simpl. f_equal; [lia|]. rewrite <- seq_shift, map_map. apply map_ext. intros; lia.
Qed.
Lemma zfrom_split (p : Z -> bool) n : forall a c, a <= c <= a + Z.of_nat n -> (forall j, a <= j < c -> p j = false) ->
  filter p (zfrom a n) = filter p (zfrom c (Z.to_nat (a + Z.of_nat n - c))).
Proof.
  induction n as [|n IH]; intros a c Hc Hp.
  - replace c with a by lia. f_equal. f_equal. lia.
  - rewrite zfrom_S. destruct (Z.eq_dec c a) as [->|].
    + rewrite <- zfrom_S. f_equal. f_equal. lia.
    + cbn [filter]. rewrite Hp by lia. rewrite (IH (a + 1) c) by (try lia; intros; apply Hp; lia). do 2 f_equal. lia.
Qed.

Lemma collect_spec s base : loadable s base -> forall fuel cur, 0 <= cur <= c_nb s * 64 ->
  c_nb s * 64 - cur < Z.of_nat fuel -> (cur < c_nb s * 64 -> vbit s base cur = true) ->
  collect fuel s base (c_nb s * 64) cur = Some (filter (vbit s base) (zfrom cur (Z.to_nat (c_nb s * 64 - cur)))).
Proof.
  intros HL. induction fuel as [|f IH]; intros cur Hc Hf Hb; [lia|]. cbn [collect].
  destruct (Z.eqb_spec cur (c_nb s * 64)) as [->|Hn].
  - rewrite Z.sub_diag. reflexivity.
  - destruct (next_spec s base cur HL ltac:(lia)) as (c & E & R & Z0 & V). rewrite E.
    rewrite (IH c) by (try lia; exact V). f_equal.
    replace (Z.to_nat (c_nb s * 64 - cur)) with (S (Z.to_nat (c_nb s * 64 - cur - 1))) by lia.
    rewrite zfrom_S. cbn [filter]. rewrite Hb by lia. f_equal.
    rewrite (zfrom_split _ _ (cur + 1) c) by (try lia; intros; apply Z0; lia). do 2 f_equal. lia.
Qed.

Lemma iterate_spec s he : 0 <= he * c_nb s < 2 ^ 32 -> 1 <= c_nb s -> loadable s (he * c_nb s) ->
  cs_iterate s he = Some (filter (vbit s (he * c_nb s)) (zrange (c_nb s * 64))).
Proof.
  intros Hb Hn HL. unfold cs_iterate. rewrite Z.mod_small by exact Hb.
  destruct (next_spec s (he * c_nb s) (-1) HL ltac:(lia)) as (c & E & R & Z0 & V). rewrite E.
  rewrite collect_spec by (try assumption; lia). f_equal.
  change (zrange (c_nb s * 64)) with (map Z.of_nat (seq 0 (Z.to_nat (c_nb s * 64)))).
  replace (map Z.of_nat (seq 0 (Z.to_nat (c_nb s * 64)))) with (zfrom 0 (Z.to_nat (c_nb s * 64)))
    by (unfold zfrom; apply map_ext; intros; lia).
  rewrite (zfrom_split _ _ 0 c) by (try lia; intros; apply Z0; lia). do 2 f_equal. lia.
Qed.

Lemma popcounts_spec s n : forall pos acc, (forall j, pos <= j < pos + Z.of_nat n -> cs_load s j = Some (c_arr s j)) ->
  cs_popcounts s pos n acc = Some (acc + sumZ (fun i => popcount64 (c_arr s (pos + Z.of_nat i))) (seq 0 n)).
Proof.
  induction n as [|n IH]; intros pos acc HL; cbn [cs_popcounts].
  - simpl. f_equal. lia.
  - rewrite HL by lia. rewrite IH by (intros; apply HL; lia). f_equal.
    cbn [seq sumZ]. rewrite <- seq_shift, sumZ_map.
    replace (pos + Z.of_nat 0) with pos by lia.
    rewrite (sumZ_ext (fun i => popcount64 (c_arr s (pos + 1 + Z.of_nat i))) (fun x => popcount64 (c_arr s (pos + Z.of_nat (S x)))))
      by (intros; do 2 f_equal; lia). lia.
Qed.
Lemma sum_words (p : Z -> bool) n :
  sumZ (fun i => sumZ (fun r => Z.b2z (p (Z.of_nat i * 64 + Z.of_nat r))) (seq 0 64)) (seq 0 n) =
  sumZ (fun c => Z.b2z (p (Z.of_nat c))) (seq 0 (n * 64)).
Proof.
  induction n as [|n IH]; [reflexivity|]. rewrite (seq_S n 0), sumZ_app, IH.
  replace (S n * 64)%nat with (n * 64 + 64)%nat by lia. rewrite (seq_app (n * 64) 64 0), sumZ_app. f_equal.
  rewrite Nat.add_0_l. cbn [sumZ]. rewrite Z.add_0_r.
  assert (E : seq (n * 64) 64 = map (fun r => (n * 64 + r)%nat) (seq 0 64)).
  { generalize (n * 64)%nat as a. intros a. generalize 64%nat as m. intros m. revert a. induction m as [|m IHm]; intros a; [reflexivity|].
    cbn [seq map]. f_equal; [lia|]. rewrite IHm, <- seq_shift, map_map. apply map_ext. intros; lia. }
  rewrite Nat.add_0_l, E, sumZ_map. apply sumZ_ext. intros r _. do 2 f_equal. lia.
Qed.
Lemma connectivity_spec s he : 1 <= c_nb s -> loadable s (he * c_nb s) ->
  cs_connectivity s he = Some (Z.of_nat (length (filter (vbit s (he * c_nb s)) (zrange (c_nb s * 64))))).
Proof.
  intros Hn HL. unfold cs_connectivity. rewrite popcounts_spec.
  - f_equal. rewrite Z.add_0_l, length_filter_sum. unfold zrange. rewrite sumZ_map.
    replace (Z.to_nat (c_nb s * 64)) with (Z.to_nat (c_nb s) * 64)%nat by lia.
    rewrite <- (sum_words (vbit s (he * c_nb s))). apply sumZ_ext. intros i Hi. unfold popcount64, countb.
    apply sumZ_ext. intros r Hr. apply in_seq in Hr. f_equal. unfold vbit.
    replace ((Z.of_nat i * 64 + Z.of_nat r) / 64) with (Z.of_nat i) by (apply (Z.div_unique _ _ _ (Z.of_nat r)); lia).
    replace ((Z.of_nat i * 64 + Z.of_nat r) mod 64) with (Z.of_nat r) by (apply (Z.mod_unique _ _ (Z.of_nat i)); lia).
    reflexivity.
  - intros j Hj. destruct HL as (H0 & H1 & H2 & H3). unfold cs_load.
    replace (0 <=? j) with true by lia. replace (j <? c_size s) with true by lia. reflexivity.
Qed.

Section Sim.
  Variables ne k : Z.
  Hypothesis Hne : 0 < ne.
  Hypothesis Hk : 1 <= k.
  Let nb := (k + 63) / 64.
  Lemma nb_pos : 1 <= nb.
  Proof. unfold nb. apply Z.div_le_lower_bound; lia. Qed.
  Lemma k_le : k <= nb * 64.
  Proof. unfold nb. pose proof (Z.div_mod (k + 63) 64 ltac:(lia)). pose proof (Z.mod_pos_bound (k + 63) 64 ltac:(lia)). lia. Qed.

  Definition cshape (s : conset) : Prop := c_nb s = nb /\ c_size s = ne * nb + 1 /\ forall j, 0 <= c_arr s j < 2 ^ 64.
  Definition crepr (s : conset) (A : sets) : Prop :=
    forall e c, 0 <= e < ne -> 0 <= c < nb * 64 -> vbit s (e * nb) c = (c <? k) && A e c.

  Lemma shape_loadable s e : cshape s -> 0 <= e < ne -> loadable s (e * c_nb s).
  Proof.
    intros (S1 & S2 & S3) He. unfold loadable. rewrite S1, S2. pose proof nb_pos.
    split; [nia|]. split; [nia|]. split; [lia|]. intros; apply S3.
  Qed.
  Lemma elements_eq s A e : cshape s -> crepr s A -> 0 <= e < ne ->
    filter (vbit s (e * c_nb s)) (zrange (c_nb s * 64)) = elements k A e.
  Proof.
    intros (S1 & S2 & S3) HR He. rewrite S1. unfold elements, zrange. pose proof k_le.
    replace (Z.to_nat (nb * 64)) with (Z.to_nat k + Z.to_nat (nb * 64 - k))%nat by lia.
    rewrite seq_app, map_app, filter_app.
    rewrite (filter_ext_in (vbit s (e * nb)) (A e) (map Z.of_nat (seq 0 (Z.to_nat k)))).
    - rewrite <- (app_nil_r (filter (A e) _)) at 2. f_equal.
      rewrite <- (app_nil_r []). transitivity (filter (fun _ : Z => false) (map Z.of_nat (seq (0 + Z.to_nat k) (Z.to_nat (nb * 64 - k))))).
      + apply filter_ext_in. intros x Hx. apply in_map_iff in Hx. destruct Hx as (i & <- & Hi). apply in_seq in Hi.
        rewrite HR by lia. replace (Z.of_nat i <? k) with false by lia. reflexivity.
      + simpl. generalize (map Z.of_nat (seq (Z.to_nat k) (Z.to_nat (nb * 64 - k)))). intros L.
        induction L as [|x r IHr]; [reflexivity|exact IHr].
    - intros x Hx. apply in_map_iff in Hx. destruct Hx as (i & <- & Hi). apply in_seq in Hi.
      rewrite HR by lia. replace (Z.of_nat i <? k) with true by lia. reflexivity.
  Qed.

  Lemma toggle_sim s A e b : cshape s -> crepr s A -> 0 <= e < ne -> 0 <= b < k ->
    exists s', cs_toggle s e b = Some s' /\ cshape s' /\ crepr s' (upd_set A e b (negb (A e b))).
  Proof.
    intros HS HR He Hb. pose proof (shape_loadable s e HS He) as HL. pose proof k_le as KL. pose proof HS as (S1 & S2 & S3).
    destruct (load_ok s (e * c_nb s) b HL ltac:(rewrite S1; lia)) as [EL Hw].
    unfold cs_toggle. rewrite EL. eexists. split; [reflexivity|].
    pose proof (Z.mod_pos_bound b 64 ltac:(lia)) as Hm. split.
    - split; [exact S1|]. split; [exact S2|]. cbn [c_arr]. intros j. destruct (j =? _); [|apply S3].
      set (w := c_arr s (e * c_nb s + b / 64)) in *. set (x := Z.lxor w (Z.shiftl 1 (b mod 64))).
      assert (Hx0 : 0 <= x). { apply Z.lxor_nonneg. split; intros _; [rewrite Z.shiftl_nonneg; lia|lia]. }
      split; [exact Hx0|]. destruct (Z.eq_dec x 0) as [->|]; [lia|]. apply Z.log2_lt_pow2; [lia|].
      destruct (Z_lt_ge_dec (Z.log2 x) 64) as [L|G]; [exact L|exfalso].
      pose proof (Z.bit_log2 x ltac:(lia)) as BL. unfold x in BL at 1. rewrite Z.lxor_spec, word_high in BL by lia.
      rewrite Z.shiftl_spec in BL by lia. rewrite Z.bits_above_log2 in BL by (simpl; lia). discriminate.
    - intros e' c He' Hc. unfold vbit. cbn [c_arr]. rewrite S1.
      specialize (HR e' c He' Hc). unfold vbit in HR. unfold upd_set.
      destruct (Z.eqb_spec (e' * nb + c / 64) (e * nb + b / 64)) as [E|E].
      + assert (c / 64 < nb) by (apply Z.div_lt_upper_bound; lia). assert (b / 64 < nb) by (apply Z.div_lt_upper_bound; lia).
        assert (0 <= c / 64) by (apply Z.div_pos; lia). assert (0 <= b / 64) by (apply Z.div_pos; lia).
        assert (e' = e) by nia. subst e'. rewrite Z.eqb_refl. cbn [andb].
        rewrite Z.lxor_spec. replace (c / 64) with (b / 64) in HR by lia. rewrite HR.
        pose proof (Z.mod_pos_bound c 64 ltac:(lia)). rewrite Z.shiftl_spec by lia.
        destruct (Z.eqb_spec c b) as [->|Hcb].
        * rewrite Z.sub_diag. replace (b <? k) with true by lia. destruct (A e b); reflexivity.
        * assert (c mod 64 <> b mod 64).
          { intros X. apply Hcb. rewrite (Z.div_mod c 64), (Z.div_mod b 64) by lia. rewrite X. f_equal. f_equal. lia. }
          assert (Z.testbit 1 (c mod 64 - b mod 64) = false) as ->.
          { destruct (Z_lt_ge_dec (c mod 64) (b mod 64)); [apply Z.testbit_neg_r; lia|].
            apply Z.bits_above_log2; [lia|simpl; lia]. }
          rewrite xorb_false_r. reflexivity.
      + rewrite HR. destruct (Z.eqb_spec e' e) as [->|]; [|reflexivity]. destruct (Z.eqb_spec c b) as [->|]; [congruence|reflexivity].
  Qed.

  Lemma land_bit w i : 0 <= i -> negb (Z.land w (Z.shiftl 1 i) =? 0) = Z.testbit w i.
  Proof.
    intros Hi. destruct (Z.testbit w i) eqn:E.
    - apply negb_true_iff, Z.eqb_neq. intros X. assert (Y : Z.testbit (Z.land w (Z.shiftl 1 i)) i = false) by (rewrite X; apply Z.bits_0).
      rewrite Z.land_spec, E, Z.shiftl_spec, Z.sub_diag in Y by lia. discriminate.
    - apply negb_false_iff, Z.eqb_eq. apply Z.bits_inj'. intros j Hj. rewrite Z.bits_0, Z.land_spec, Z.shiftl_spec by lia.
      destruct (Z.eq_dec j i) as [->|]; [rewrite E; reflexivity|]. apply andb_false_iff. right.
      destruct (Z_lt_ge_dec j i); [apply Z.testbit_neg_r; lia|]. apply Z.bits_above_log2; [lia|simpl; lia].
  Qed.
  Lemma contains_ok s A e b : cshape s -> crepr s A -> 0 <= e < ne -> 0 <= b < k -> cs_contains s e b = Some (A e b).
  Proof.
    intros HS HR He Hb. pose proof (shape_loadable s e HS He) as HL. pose proof k_le as KL. pose proof HS as (S1 & S2 & S3).
    destruct (load_ok s (e * c_nb s) b HL ltac:(rewrite S1; lia)) as [EL Hw]. unfold cs_contains. rewrite EL.
    pose proof (Z.mod_pos_bound b 64 ltac:(lia)). rewrite land_bit by lia. f_equal.
    specialize (HR e b He ltac:(lia)). unfold vbit in HR. rewrite S1, HR. replace (b <? k) with true by lia. reflexivity.
  Qed.
  Lemma isSet_ok s A e b : cshape s -> crepr s A -> 0 <= e < ne -> 0 <= b < k -> cs_isSet s e b = Some (A e b).
  Proof.
    intros HS HR He Hb. pose proof (shape_loadable s e HS He) as HL. pose proof k_le as KL. pose proof HS as (S1 & S2 & S3).
    destruct (load_ok s (e * c_nb s) b HL ltac:(rewrite S1; lia)) as [EL Hw]. unfold cs_isSet. rewrite EL.
    pose proof (Z.mod_pos_bound b 64 ltac:(lia)). change 1 with (Z.shiftl 1 0) at 1. rewrite land_bit by lia.
    rewrite Z.shiftr_spec by lia. rewrite Z.add_0_l. f_equal.
    specialize (HR e b He ltac:(lia)). unfold vbit in HR. rewrite S1, HR. replace (b <? k) with true by lia. reflexivity.
  Qed.

  Lemma crepr_ext s A B : (forall e b, A e b = B e b) -> crepr s A -> crepr s B.
  Proof. intros E HR e c He Hc. rewrite <- E. apply HR; assumption. Qed.

  Lemma cs_step_sim s A o A' v : cshape s -> crepr s A -> set_step ne k A o = Some (A', v) ->
    exists s', cs_step s o = Some (s', v) /\ cshape s' /\ crepr s' A'.
  Proof.
    intros HS HR E. pose proof nb_pos as NP. pose proof HS as (S1 & S2 & S3).
    assert (OK : forall e b, (0 <=? e) && (e <? ne) && (0 <=? b) && (b <? k) = true -> 0 <= e < ne /\ 0 <= b < k).
    { intros e b Hx. rewrite !andb_true_iff in Hx. lia. }
    destruct o as [e b|e b|e| |e b|e b|e|e]; cbn [set_step] in E; cbn [cs_step].
    - destruct (_ && negb _) eqn:Ec in E; [|discriminate]. inversion E; subst. apply andb_true_iff in Ec. destruct Ec as [Ec E2].
      destruct (OK e b Ec) as [He Hb]. destruct (toggle_sim s A e b HS HR He Hb) as (s' & P & HS' & HR').
      rewrite P. exists s'. split; [reflexivity|]. split; [exact HS'|]. rewrite E2 in HR'. exact HR'.
    - destruct (_ && A e b) eqn:Ec in E; [|discriminate]. inversion E; subst. apply andb_true_iff in Ec. destruct Ec as [Ec E2].
      destruct (OK e b Ec) as [He Hb]. destruct (toggle_sim s A e b HS HR He Hb) as (s' & P & HS' & HR').
      rewrite P. exists s'. split; [reflexivity|]. split; [exact HS'|]. rewrite E2 in HR'. exact HR'.
    - destruct (_ && _) eqn:Ec in E; [|discriminate]. inversion E; subst. apply andb_true_iff in Ec.
      unfold cs_clear. rewrite S1, S2. replace (0 <=? e * nb) with true by nia. replace ((e + 1) * nb <=? ne * nb + 1) with true by nia.
      cbn [andb]. eexists. split; [reflexivity|]. split.
      + split; [reflexivity|]. split; [reflexivity|]. intros j. cbn [c_arr]. destruct (_ && _); [lia|apply S3].
      + intros e' c He' Hc. unfold vbit. cbn [c_arr].
        assert (0 <= c / 64) by (apply Z.div_pos; lia). assert (c / 64 < nb) by (apply Z.div_lt_upper_bound; lia).
        destruct (Z.eqb_spec e' e) as [->|Hne'].
        * replace (_ && _) with true by nia. rewrite Z.bits_0, andb_false_r. reflexivity.
        * replace ((e * nb <=? e' * nb + c / 64) && (e' * nb + c / 64 <? (e + 1) * nb)) with false; [apply HR; assumption|].
          symmetry. apply andb_false_iff. destruct (Z_lt_ge_dec e' e); [left; apply Z.leb_gt; nia|right; apply Z.ltb_ge; nia].
    - inversion E; subst. eexists. split; [reflexivity|]. split.
      + split; [exact S1|]. split; [exact S2|]. intros j. cbn [c_arr cs_reset]. destruct (_ && _); [lia|apply S3].
      + intros e c He Hc. unfold vbit. cbn [c_arr cs_reset]. rewrite S2.
        assert (0 <= c / 64) by (apply Z.div_pos; lia). assert (c / 64 < nb) by (apply Z.div_lt_upper_bound; lia).
        replace (_ && _) with true by nia. rewrite Z.bits_0, andb_false_r. reflexivity.
    - destruct (_ && _) eqn:Ec in E; [|discriminate]. inversion E; subst. destruct (OK e b Ec) as [He Hb].
      rewrite (contains_ok s A' e b) by assumption. exists s. auto.
    - destruct (_ && _) eqn:Ec in E; [|discriminate]. inversion E; subst. destruct (OK e b Ec) as [He Hb].
      rewrite (isSet_ok s A' e b) by assumption. exists s. auto.
    - destruct (_ && _) eqn:Ec in E; [|discriminate]. inversion E; subst. apply andb_true_iff in Ec.
      rewrite connectivity_spec; [|rewrite S1; exact NP|apply shape_loadable; [exact HS|lia]].
      rewrite (elements_eq s A' e) by (try assumption; lia). exists s. auto.
    - destruct (_ && _) eqn:Ec in E; [|discriminate]. inversion E; subst. rewrite !andb_true_iff in Ec. fold nb in Ec.
      rewrite iterate_spec; [|rewrite S1; nia|rewrite S1; exact NP|apply shape_loadable; [exact HS|lia]].
      rewrite (elements_eq s A' e) by (try assumption; lia). exists s. auto.
  Qed.
  Lemma cs_run_sim l : forall s A A' vs, cshape s -> crepr s A -> set_run ne k A l = Some (A', vs) ->
    exists s', cs_run s l = Some (s', vs).
  Proof.
    induction l as [|o r IH]; intros s A A' vs HS HR E; simpl in E.
    - inversion E; subst. exists s. reflexivity.
    - destruct (set_step ne k A o) as [[A1 v]|] eqn:E1; [|discriminate].
      destruct (set_run ne k A1 r) as [[A2 vs']|] eqn:E2; [|discriminate]. inversion E; subst.
      destruct (cs_step_sim s A o A1 v HS HR E1) as (s1 & P1 & HS1 & HR1).
      destruct (IH s1 A1 A' vs' HS1 HR1 E2) as (s2 & P2). exists s2. simpl. rewrite P1, P2. reflexivity.
  Qed.
End Sim.

(** C14: for every sequence of operations that adds only absent and removes only present blocks, the bitset stays
    within its allocation and every query (contains, isSet, size, iteration) returns what the mathematical sets
    return; iteration lists the elements in increasing order. *)
Theorem C14_connectivity_sets_are_sets : forall ne k ops A vs, 0 < ne -> 1 <= k ->
  set_run ne k (fun _ _ => false) ops = Some (A, vs) ->
  exists s, cs_run (cs_init ne k) ops = Some (s, vs).
Proof.
  intros ne k ops A vs Hne Hk E. apply (cs_run_sim ne k Hne Hk ops (cs_init ne k) (fun _ _ => false) A vs); [| |exact E].
  - unfold cs_init, cshape. cbn [c_nb c_size c_arr]. rewrite nb_ceil by lia. split; [reflexivity|]. split; [reflexivity|]. lia.
  - intros e c He Hc. unfold vbit. cbn [cs_init c_arr]. rewrite Z.bits_0, andb_false_r. reflexivity.
Qed.
(** [elements] is what it should be: exactly the members below k, strictly increasing. *)
Theorem C14_elements_sorted : forall k A e,
  (forall b, In b (elements k A e) <-> 0 <= b < k /\ A e b = true) /\ StronglySorted Z.lt (elements k A e).
Proof.
  intros k A e. split.
  - intros b. unfold elements, zrange. rewrite filter_In, in_map_iff. split.
    + intros [(i & <- & Hi) HA]. apply in_seq in Hi. split; [lia|exact HA].
    + intros [Hb HA]. split; [|exact HA]. exists (Z.to_nat b). split; [lia|apply in_seq; lia].
  - unfold elements, zrange. generalize (Z.to_nat k) as n. intros n. generalize 0%nat as a. induction n as [|n IH]; intros a; [constructor|].
    cbn [seq map filter]. assert (HF : Forall (Z.lt (Z.of_nat a)) (filter (A e) (map Z.of_nat (seq (S a) n)))).
    { apply Forall_forall. intros x Hx. apply filter_In in Hx. destruct Hx as [Hx _]. apply in_map_iff in Hx.
      destruct Hx as (i & <- & Hi). apply in_seq in Hi. lia. }
    destruct (A e (Z.of_nat a)); [constructor; [apply IH|exact HF]|apply IH].
Qed.
Example ex_C14 :
  match set_run 3 130 (fun _ _ => false) [CAdd 1 3; CAdd 1 64; CAdd 1 129; CAdd 2 0; CRemove 1 64; CIter 1; CCard 1; CContains 1 64; CIsSet 1 129] with
  | Some (_, vs) => vs = [[];[];[];[];[];[3;129];[2];[0];[1]] | None => False end /\
  match cs_run (cs_init 3 130) [CAdd 1 3; CAdd 1 64; CAdd 1 129; CAdd 2 0; CRemove 1 64; CIter 1; CCard 1; CContains 1 64; CIsSet 1 129] with
  | Some (_, vs) => vs = [[];[];[];[];[];[3;129];[2];[0];[1]] | None => False end.
Proof. split; vm_compute; reflexivity. Qed.

(** Without the bound on the index (k > 64, hyperedge id 2^31): the set contains block 3 but iterating it yields
    the set of hyperedge 0, because connectivitySet(he) multiplies in 32 bits. *)
Theorem C14_iteration_refuted_for_large_index :
  exists ne k e b, 0 <= e < ne /\ ne < 2 ^ 32 /\ 0 <= b < k /\
    match cs_run (cs_init ne k) [CAdd e b; CContains e b; CIter e] with
    | Some (_, vs) => vs = [[]; [1]; []] | None => False end.
Proof.
  exists (2 ^ 31 + 1), 65, (2 ^ 31), 3. split; [lia|]. split; [lia|]. split; [lia|]. vm_compute. reflexivity.
Qed.
