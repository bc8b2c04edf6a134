(** PinCounts.v - bit level model of PinCountInPart (mt-kahypar/datastructures/pin_count_in_part.h) and of
    PinCountSnapshot (pin_count_snapshot.h).
    64-bit words are integers in [0, 2^64); <<, ~ are reduced modulo 2^64.  Array accesses are bounds checked and
    yield [None] outside the allocation.  The floating point expression ceil(log2(max+1)) is taken to be the exact
    ceiling of the base-2 logarithm (Z.log2_up); 32-bit ids are unbounded. *)
From Verif Require Import Base.

Definition W64 : Z := 64.
Definition shl64 (v b : Z) : Z := Z.land (Z.shiftl v b) (Z.ones 64).
Definition not64 (v : Z) : Z := Z.lxor v (Z.ones 64).

(** Members, pin_count_in_part.h:261-269. *)
Record pcip := mkPC {
  p_ne : Z; p_k : Z; p_max : Z; p_bits : Z; p_epv : Z; p_vph : Z; p_mask : Z;
  p_size : Z; p_arr : Z -> Z
}.

(** num_bits_per_element :257-259, num_entries_per_value :249-255, num_values_per_hyperedge :242-247. *)
Definition num_bits (maxv : Z) : Z := Z.log2_up (maxv + 1).
Definition num_entries_per_value (k maxv : Z) : Z := Z.min (64 / num_bits maxv) k.
Definition num_values_per_hyperedge (k maxv : Z) : Z :=
  let epv := num_entries_per_value k maxv in k / epv + (if k mod epv =? 0 then 0 else 1).

(** initialize, pin_count_in_part.h:117-134 (for num_hyperedges > 0). *)
Definition pc_initialize (ne k maxv : Z) : pcip :=
  let bits := num_bits maxv in
  let vph := num_values_per_hyperedge k maxv in
  mkPC ne k maxv bits (num_entries_per_value k maxv) vph (2 ^ bits - 1) (ne * vph) (fun _ => 0).

(** reset :136-138. *)
Definition pc_reset (s : pcip) : pcip :=
  mkPC (p_ne s) (p_k s) (p_max s) (p_bits s) (p_epv s) (p_vph s) (p_mask s) (p_size s) (fun _ => 0).

Definition value_pos (s : pcip) (he id : Z) : Z := he * p_vph s + id / p_epv s.
Definition bit_pos (s : pcip) (id : Z) : Z := (id mod p_epv s) * p_bits s.
Definition in_bounds (s : pcip) (pos : Z) : bool := (0 <=? pos) && (pos <? p_size s).

(** Extraction common to pinCountInPart :149-157 and increment/decrement. *)
Definition extract (s : pcip) (w bp : Z) : Z := Z.shiftr (Z.land w (shl64 (p_mask s) bp)) bp.
Definition pinCountInPart_ (s : pcip) (he id : Z) : option Z :=
  let pos := value_pos s he id in
  if in_bounds s pos then Some (extract s (p_arr s pos) (bit_pos s id)) else None.

(** updateEntry :229-236. *)
Definition updateEntry (s : pcip) (w bp new : Z) : Z :=
  Z.lor (Z.land w (not64 (shl64 (p_mask s) bp))) (shl64 new bp).
Definition updZ (f : Z -> Z) (i v : Z) : Z -> Z := fun j => if j =? i then v else f j.
Definition pc_write (s : pcip) (pos w : Z) : pcip :=
  mkPC (p_ne s) (p_k s) (p_max s) (p_bits s) (p_epv s) (p_vph s) (p_mask s) (p_size s) (updZ (p_arr s) pos w).

(** setPinCountInPart :160-168. *)
Definition pc_set (s : pcip) (he id v : Z) : option pcip :=
  let pos := value_pos s he id in
  if in_bounds s pos then Some (pc_write s pos (updateEntry s (p_arr s pos) (bit_pos s id) v)) else None.
(** incrementPinCountInPart :171-184. *)
Definition pc_inc (s : pcip) (he id : Z) : option (pcip * Z) :=
  let pos := value_pos s he id in
  if in_bounds s pos then
    let c := extract s (p_arr s pos) (bit_pos s id) in
    Some (pc_write s pos (updateEntry s (p_arr s pos) (bit_pos s id) (c + 1)), c + 1)
  else None.
(** decrementPinCountInPart :187-200. *)
Definition pc_dec (s : pcip) (he id : Z) : option (pcip * Z) :=
  let pos := value_pos s he id in
  if in_bounds s pos then
    let c := extract s (p_arr s pos) (bit_pos s id) in
    Some (pc_write s pos (updateEntry s (p_arr s pos) (bit_pos s id) (c - 1)), c - 1)
  else None.
(** snapshot :142-146 and PinCountSnapshot::snapshot, pin_count_snapshot.h:79-81: memcpy of vph words from
    he * vph; PinCountSnapshot::pinCountInPart :84-90 on the copy. *)
Definition pc_snapshot (s : pcip) (he : Z) : option (Z -> Z) :=
  if (p_vph s =? 0) || (in_bounds s (he * p_vph s) && in_bounds s (he * p_vph s + p_vph s - 1))
  then Some (fun i => p_arr s (he * p_vph s + i)) else None.
Definition snap_get (s : pcip) (snap : Z -> Z) (id : Z) : option Z :=
  let pos := id / p_epv s in
  if (0 <=? pos) && (pos <? p_vph s) then Some (extract s (snap pos) (bit_pos s id)) else None.

(** Operation sequences and their outputs. *)
Inductive pc_op := PSet (e b v : Z) | PInc (e b : Z) | PDec (e b : Z) | PGet (e b : Z) | PSnapGet (e b : Z) | PReset.
Definition pc_step (s : pcip) (o : pc_op) : option (pcip * Z) :=
  match o with
  | PSet e b v => match pc_set s e b v with Some s' => Some (s', 0) | None => None end
  | PInc e b => pc_inc s e b
  | PDec e b => pc_dec s e b
  | PGet e b => match pinCountInPart_ s e b with Some v => Some (s, v) | None => None end
  | PSnapGet e b => match pc_snapshot s e with
                    | Some sn => match snap_get s sn b with Some v => Some (s, v) | None => None end
                    | None => None end
  | PReset => Some (pc_reset s, 0)
  end.
Fixpoint pc_run (s : pcip) (l : list pc_op) : option (pcip * list Z) :=
  match l with
  | [] => Some (s, [])
  | o :: r => match pc_step s o with
              | None => None
              | Some (s', v) => match pc_run s' r with None => None | Some (s'', vs) => Some (s'', v :: vs) end
              end
  end.

(** ---- specification: a plain two-dimensional array of counters ---- *)
Definition counters := Z -> Z -> Z.
Definition upd_ctr (A : counters) (e b v : Z) : counters := fun e' b' => if (e' =? e) && (b' =? b) then v else A e' b'.
Definition ctr_step (ne k maxv : Z) (A : counters) (o : pc_op) : option (counters * Z) :=
  let ok := fun e b => (0 <=? e) && (e <? ne) && (0 <=? b) && (b <? k) in
  match o with
  | PSet e b v => if ok e b && (0 <=? v) && (v <=? maxv) then Some (upd_ctr A e b v, 0) else None
  | PInc e b => if ok e b && (A e b <? maxv) then Some (upd_ctr A e b (A e b + 1), A e b + 1) else None
  | PDec e b => if ok e b && (0 <? A e b) then Some (upd_ctr A e b (A e b - 1), A e b - 1) else None
  | PGet e b | PSnapGet e b => if ok e b then Some (A, A e b) else None
  | PReset => Some (fun _ _ => 0, 0)
  end.
Fixpoint ctr_run (ne k maxv : Z) (A : counters) (l : list pc_op) : option (counters * list Z) :=
  match l with
  | [] => Some (A, [])
  | o :: r => match ctr_step ne k maxv A o with
              | None => None
              | Some (A', v) => match ctr_run ne k maxv A' r with None => None | Some (A'', vs) => Some (A'', v :: vs) end
              end
  end.

(** ---- proofs ---- *)
Section Proofs.
  Variables ne k maxv : Z.
  Hypothesis Hne : 0 < ne.
  Hypothesis Hk : 1 <= k.
  Hypothesis Hmax : 1 <= maxv.
  Hypothesis Hmax32 : maxv < 2 ^ 32 - 1.

  Lemma bits_pos : 1 <= num_bits maxv.
  Proof. unfold num_bits. pose proof (Z.log2_up_pos (maxv + 1) ltac:(lia)). lia. Qed.
  Lemma bits_le : num_bits maxv <= 32.
  Proof. unfold num_bits. apply Z.log2_up_le_pow2; lia. Qed.
  Lemma max_lt : maxv < 2 ^ num_bits maxv.
  Proof. unfold num_bits. pose proof (Z.log2_up_spec (maxv + 1) ltac:(lia)). lia. Qed.
  Lemma epv_pos : 1 <= num_entries_per_value k maxv.
  Proof.
    unfold num_entries_per_value. pose proof bits_pos. pose proof bits_le.
    assert (1 <= 64 / num_bits maxv) by (apply Z.div_le_lower_bound; lia). lia.
  Qed.
  Lemma epv_bits : num_entries_per_value k maxv * num_bits maxv <= 64.
  Proof.
    unfold num_entries_per_value. pose proof bits_pos.
    pose proof (Z.mul_div_le 64 (num_bits maxv) ltac:(lia)). nia.
  Qed.
  Lemma word_lt b : 0 <= b < k -> 0 <= b / num_entries_per_value k maxv < num_values_per_hyperedge k maxv.
  Proof.
    intros Hb. pose proof epv_pos as He. unfold num_values_per_hyperedge.
    set (epv := num_entries_per_value k maxv) in *.
    pose proof (Z.div_mod k epv ltac:(lia)). pose proof (Z.mod_pos_bound k epv ltac:(lia)).
    split; [apply Z.div_pos; lia|].
    destruct (Z.eqb_spec (k mod epv) 0).
    - apply Z.div_lt_upper_bound; lia.
    - apply Z.div_lt_upper_bound; lia.
  Qed.
  Lemma vph_pos : 1 <= num_values_per_hyperedge k maxv.
  Proof. pose proof (word_lt 0 ltac:(lia)). lia. Qed.

  Definition shape (s : pcip) : Prop :=
    p_ne s = ne /\ p_k s = k /\ p_max s = maxv /\ p_bits s = num_bits maxv /\ p_epv s = num_entries_per_value k maxv /\
    p_vph s = num_values_per_hyperedge k maxv /\ p_mask s = 2 ^ num_bits maxv - 1 /\
    p_size s = ne * num_values_per_hyperedge k maxv.

  (** Representation: the bits of the slot of (e,b) are the bits of the counter. *)
  Definition repr (s : pcip) (A : counters) : Prop :=
    forall e b, 0 <= e < ne -> 0 <= b < k ->
      0 <= A e b <= maxv /\
      forall i, 0 <= i < num_bits maxv -> Z.testbit (p_arr s (value_pos s e b)) (bit_pos s b + i) = Z.testbit (A e b) i.

  Lemma bounds_ok s e b : shape s -> 0 <= e < ne -> 0 <= b < k -> in_bounds s (value_pos s e b) = true.
  Proof.
    intros (S1 & S2 & S3 & S4 & S5 & S6 & S7 & S8) He Hb. unfold in_bounds, value_pos. rewrite S5, S6, S8.
    pose proof (word_lt b Hb). pose proof vph_pos. set (vph := num_values_per_hyperedge k maxv) in *.
    apply andb_true_iff. split; [apply Z.leb_le; nia|apply Z.ltb_lt].
    assert (e * vph + vph <= ne * vph) by nia. lia.
  Qed.
  Lemma bit_pos_bounds s b : shape s -> 0 <= b < k -> 0 <= bit_pos s b /\ bit_pos s b + num_bits maxv <= 64.
  Proof.
    intros (S1 & S2 & S3 & S4 & S5 & S6 & S7 & S8) Hb. unfold bit_pos. rewrite S4, S5.
    pose proof epv_pos. pose proof epv_bits. pose proof bits_pos.
    pose proof (Z.mod_pos_bound b (num_entries_per_value k maxv) ltac:(lia)). nia.
  Qed.
  Lemma mask_bit s bp i : shape s -> 0 <= bp -> bp + num_bits maxv <= 64 -> 0 <= i ->
    Z.testbit (shl64 (p_mask s) bp) i = (bp <=? i) && (i <? bp + num_bits maxv).
  Proof.
    intros (S1 & S2 & S3 & S4 & S5 & S6 & S7 & S8) Hb0 Hb Hi. pose proof bits_pos. unfold shl64.
    rewrite Z.land_spec, Z.shiftl_spec by lia. rewrite S7. replace (2 ^ num_bits maxv - 1) with (Z.ones (num_bits maxv)) by (rewrite Z.ones_equiv; lia).
    rewrite (Z.testbit_ones_nonneg 64 i) by lia.
    destruct (Z.leb_spec bp i).
    - rewrite Z.testbit_ones_nonneg by lia. destruct (Z.ltb_spec (i - bp) (num_bits maxv)), (Z.ltb_spec i 64), (Z.ltb_spec i (bp + num_bits maxv)); simpl; lia.
    - rewrite Z.testbit_neg_r by lia. reflexivity.
  Qed.
  Lemma extract_bit s w bp i : shape s -> 0 <= bp -> bp + num_bits maxv <= 64 -> 0 <= i ->
    Z.testbit (extract s w bp) i = Z.testbit w (bp + i) && (i <? num_bits maxv).
  Proof.
    intros HS Hb0 Hb Hi. unfold extract. rewrite Z.shiftr_spec by lia. rewrite Z.land_spec.
    rewrite (mask_bit s bp (i + bp) HS Hb0 Hb) by lia. rewrite (Z.add_comm i bp).
    replace (bp <=? bp + i) with true by lia. cbn [andb].
    replace (bp + i <? bp + num_bits maxv) with (i <? num_bits maxv) by lia. reflexivity.
  Qed.
  Lemma testbit_small v i : 0 <= v <= maxv -> num_bits maxv <= i -> Z.testbit v i = false.
  Proof.
    intros Hv Hi. pose proof bits_pos. pose proof max_lt.
    destruct (Z.eq_dec v 0) as [->|]; [apply Z.bits_0|].
    apply Z.bits_above_log2; [lia|]. apply Z.log2_lt_pow2; [lia|].
    assert (2 ^ num_bits maxv <= 2 ^ i) by (apply Z.pow_le_mono_r; lia). lia.
  Qed.
  Lemma extract_exact s A e b : shape s -> repr s A -> 0 <= e < ne -> 0 <= b < k ->
    extract s (p_arr s (value_pos s e b)) (bit_pos s b) = A e b.
  Proof.
    intros HS HR He Hb. destruct (bit_pos_bounds s b HS Hb) as [B0 B1]. destruct (HR e b He Hb) as [Hv Hbit].
    apply Z.bits_inj'. intros i Hi. rewrite extract_bit by assumption.
    destruct (Z.ltb_spec i (num_bits maxv)).
    - rewrite Hbit by lia. apply andb_true_r.
    - rewrite (testbit_small (A e b) i) by lia. apply andb_false_r.
  Qed.
  Lemma update_bit s w bp v i : shape s -> 0 <= bp -> bp + num_bits maxv <= 64 -> 0 <= v <= maxv -> 0 <= i < 64 ->
    Z.testbit (updateEntry s w bp v) i =
    if (bp <=? i) && (i <? bp + num_bits maxv) then Z.testbit v (i - bp) else Z.testbit w i.
  Proof.
    intros HS Hb0 Hb Hv Hi. unfold updateEntry, not64. rewrite Z.lor_spec, Z.land_spec, Z.lxor_spec.
    rewrite (mask_bit s bp i HS Hb0 Hb) by lia. rewrite Z.testbit_ones_nonneg by lia. replace (i <? 64) with true by lia.
    unfold shl64. rewrite Z.land_spec, Z.shiftl_spec by lia. rewrite Z.testbit_ones_nonneg by lia.
    replace (i <? 64) with true by lia. rewrite andb_true_r.
    destruct (Z.leb_spec bp i); cbn [andb].
    - destruct (Z.ltb_spec i (bp + num_bits maxv)); cbn [xorb].
      + rewrite andb_false_r. reflexivity.
      + rewrite (testbit_small v (i - bp)) by lia. rewrite andb_true_r, orb_false_r. reflexivity.
    - cbn [xorb]. rewrite (Z.testbit_neg_r v) by lia. rewrite andb_true_r, orb_false_r. reflexivity.
  Qed.

  Lemma slot_inj s e b e' b' : shape s -> 0 <= e < ne -> 0 <= b < k -> 0 <= e' < ne -> 0 <= b' < k ->
    value_pos s e b = value_pos s e' b' ->
    e = e' /\ (b mod p_epv s = b' mod p_epv s -> b = b').
  Proof.
    intros (S1 & S2 & S3 & S4 & S5 & S6 & S7 & S8) He Hb He' Hb'. unfold value_pos. rewrite S5, S6. intros E.
    pose proof (word_lt b Hb). pose proof (word_lt b' Hb'). pose proof vph_pos.
    set (vph := num_values_per_hyperedge k maxv) in *. set (epv := num_entries_per_value k maxv) in *.
    assert (e = e') by nia. split; [assumption|]. subst e'. assert (Eq : b / epv = b' / epv) by lia. intros Em.
    pose proof epv_pos. rewrite (Z.div_mod b epv), (Z.div_mod b' epv) by (unfold epv; lia). rewrite Eq, Em. reflexivity.
  Qed.

  Lemma write_repr s A e b v : shape s -> repr s A -> 0 <= e < ne -> 0 <= b < k -> 0 <= v <= maxv ->
    repr (pc_write s (value_pos s e b) (updateEntry s (p_arr s (value_pos s e b)) (bit_pos s b) v)) (upd_ctr A e b v).
  Proof.
    intros HS HR He Hb Hv e' b' He' Hb'. destruct (HR e' b' He' Hb') as [Hv' Hbit]. unfold upd_ctr. split.
    { destruct ((e' =? e) && (b' =? b)); lia. }
    intros i Hi. destruct (bit_pos_bounds s b HS Hb) as [B0 B1]. destruct (bit_pos_bounds s b' HS Hb') as [B0' B1'].
    change (value_pos (pc_write s (value_pos s e b) (updateEntry s (p_arr s (value_pos s e b)) (bit_pos s b) v)) e' b') with (value_pos s e' b').
    change (bit_pos (pc_write s (value_pos s e b) (updateEntry s (p_arr s (value_pos s e b)) (bit_pos s b) v)) b') with (bit_pos s b').
    unfold pc_write, updZ; cbn [p_arr].
    destruct (Z.eqb_spec (value_pos s e' b') (value_pos s e b)) as [E|E].
    - destruct (slot_inj s e' b' e b HS He' Hb' He Hb E) as [-> Hinj]. rewrite Z.eqb_refl. cbn [andb].
      rewrite update_bit by (try assumption; lia). rewrite <- E.
      destruct (Z.eqb_spec b' b) as [->|Hne'].
      + replace (bit_pos s b <=? bit_pos s b + i) with true by lia.
        replace (bit_pos s b + i <? bit_pos s b + num_bits maxv) with true by lia. cbn [andb]. f_equal. lia.
      + assert (Hm : b' mod p_epv s <> b mod p_epv s) by (intros X; apply Hne'; apply Hinj; exact X).
        rewrite <- Hbit by exact Hi.
        match goal with |- (if ?c then _ else _) = _ => replace c with false; [reflexivity|] end.
        symmetry. unfold bit_pos in *. destruct HS as (_ & _ & _ & S4 & _). rewrite S4 in *.
        set (m := b mod p_epv s) in *. set (m' := b' mod p_epv s) in *. set (B := num_bits maxv) in *.
        apply andb_false_iff. destruct (Z_lt_ge_dec m m').
        * right. apply Z.ltb_ge. nia.
        * left. apply Z.leb_gt. assert (m' + 1 <= m) by lia. nia.
    - destruct (Z.eqb_spec e' e) as [->|]; [|apply Hbit; exact Hi]. destruct (Z.eqb_spec b' b) as [->|]; [congruence|].
      apply Hbit; exact Hi.
  Qed.

  Lemma shape_write s pos w : shape s -> shape (pc_write s pos w). Proof. exact (fun h => h). Qed.

  Lemma step_sim s A o A' v : shape s -> repr s A -> ctr_step ne k maxv A o = Some (A', v) ->
    exists s', pc_step s o = Some (s', v) /\ shape s' /\ repr s' A'.
  Proof.
    intros HS HR E.
    assert (OK : forall e b, (0 <=? e) && (e <? ne) && (0 <=? b) && (b <? k) = true -> 0 <= e < ne /\ 0 <= b < k).
    { intros e b Hx. rewrite !andb_true_iff in Hx. lia. }
    destruct o as [e b x|e b|e b|e b|e b|]; simpl in E.
    - destruct (_ && _) eqn:Ec in E; [|discriminate]. inversion E; subst. apply andb_true_iff in Ec. destruct Ec as [Ec E3].
      apply andb_true_iff in Ec. destruct Ec as [Ec E2]. destruct (OK e b Ec) as [He Hb].
      simpl. unfold pc_set. rewrite (bounds_ok s e b HS He Hb). eexists. split; [reflexivity|]. split; [exact HS|].
      apply write_repr; auto. lia.
    - destruct (_ && _) eqn:Ec in E; [|discriminate]. inversion E; subst. apply andb_true_iff in Ec. destruct Ec as [Ec E2].
      destruct (OK e b Ec) as [He Hb]. simpl. unfold pc_inc. rewrite (bounds_ok s e b HS He Hb).
      rewrite (extract_exact s A e b HS HR He Hb). eexists. split; [reflexivity|]. split; [exact HS|].
      apply write_repr; auto. destruct (HR e b He Hb) as [? _]. lia.
    - destruct (_ && _) eqn:Ec in E; [|discriminate]. inversion E; subst. apply andb_true_iff in Ec. destruct Ec as [Ec E2].
      destruct (OK e b Ec) as [He Hb]. simpl. unfold pc_dec. rewrite (bounds_ok s e b HS He Hb).
      rewrite (extract_exact s A e b HS HR He Hb). eexists. split; [reflexivity|]. split; [exact HS|].
      apply write_repr; auto. destruct (HR e b He Hb) as [? _]. lia.
    - destruct (_ && _) eqn:Ec in E; [|discriminate]. inversion E; subst. destruct (OK e b Ec) as [He Hb].
      simpl. unfold pinCountInPart_. rewrite (bounds_ok s e b HS He Hb), (extract_exact s A' e b HS HR He Hb).
      eexists. split; [reflexivity|]. split; assumption.
    - destruct (_ && _) eqn:Ec in E; [|discriminate]. inversion E; subst. destruct (OK e b Ec) as [He Hb].
      simpl. unfold pc_snapshot. pose proof HS as (S1 & S2 & S3 & S4 & S5 & S6 & S7 & S8).
      pose proof vph_pos as Vp. pose proof (word_lt b Hb) as Wl.
      assert (B1 : in_bounds s (e * p_vph s) = true).
      { unfold in_bounds. rewrite S6, S8. apply andb_true_iff. split; [apply Z.leb_le; nia|apply Z.ltb_lt; nia]. }
      assert (B2 : in_bounds s (e * p_vph s + p_vph s - 1) = true).
      { unfold in_bounds. rewrite S6, S8. apply andb_true_iff. split; [apply Z.leb_le; nia|apply Z.ltb_lt; nia]. }
      rewrite B1, B2. cbn [andb]. rewrite orb_true_r. unfold snap_get. rewrite S5, S6.
      replace (0 <=? b / num_entries_per_value k maxv) with true by lia.
      replace (b / num_entries_per_value k maxv <? num_values_per_hyperedge k maxv) with true by lia. cbn [andb].
      rewrite <- S5, <- S6. fold (value_pos s e b). rewrite (extract_exact s A' e b HS HR He Hb).
      eexists. split; [reflexivity|]. split; assumption.
    - inversion E; subst. simpl. eexists. split; [reflexivity|]. split; [exact HS|].
      intros e b He Hb. split; [lia|]. intros i Hi. simpl. rewrite !Z.bits_0. reflexivity.
  Qed.

  Lemma run_sim l : forall s A A' vs, shape s -> repr s A -> ctr_run ne k maxv A l = Some (A', vs) ->
    exists s', pc_run s l = Some (s', vs) /\ shape s' /\ repr s' A'.
  Proof.
    induction l as [|o r IH]; intros s A A' vs HS HR E; simpl in E.
    - inversion E; subst. exists s. simpl. auto.
    - destruct (ctr_step ne k maxv A o) as [[A1 v]|] eqn:E1; [|discriminate].
      destruct (ctr_run ne k maxv A1 r) as [[A2 vs']|] eqn:E2; [|discriminate]. inversion E; subst.
      destruct (step_sim s A o A1 v HS HR E1) as (s1 & P1 & HS1 & HR1).
      destruct (IH s1 A1 A' vs' HS1 HR1 E2) as (s2 & P2 & HS2 & HR2).
      exists s2. simpl. rewrite P1, P2. auto.
  Qed.
End Proofs.

(** C13: for every sequence of operations that a plain array of counters in [0..maxv] admits, the packed table
    never leaves its allocation, returns the same results, and afterwards reads the same value at every entry. *)
Theorem C13_packed_counters_are_counters : forall ne k maxv ops A vs,
  0 < ne -> 1 <= k -> 1 <= maxv -> maxv < 2 ^ 32 - 1 ->
  ctr_run ne k maxv (fun _ _ => 0) ops = Some (A, vs) ->
  exists s, pc_run (pc_initialize ne k maxv) ops = Some (s, vs) /\
    forall e b, 0 <= e < ne -> 0 <= b < k -> pinCountInPart_ s e b = Some (A e b).
Proof.
  intros ne k maxv ops A vs Hne Hk Hm H32 E.
  destruct (run_sim ne k maxv Hne Hk Hm H32 ops (pc_initialize ne k maxv) (fun _ _ => 0) A vs) as (s & P & HS & HR).
  - repeat split.
  - intros e b He Hb. split; [lia|]. intros i Hi. simpl. rewrite !Z.bits_0. reflexivity.
  - exact E.
  - exists s. split; [exact P|]. intros e b He Hb. unfold pinCountInPart_.
    rewrite (bounds_ok ne k maxv) by assumption. rewrite (extract_exact ne k maxv) with (A := A) by assumption. reflexivity.
Qed.
Example ex_C13 :
  match ctr_run 3 30 5 (fun _ _ => 0) [PSet 1 4 5; PInc 1 5; PInc 1 5; PDec 1 4; PGet 1 4; PGet 1 3; PSnapGet 1 5; PGet 2 22] with
  | Some (_, vs) => vs = [0; 1; 2; 4; 4; 0; 2; 0] | None => False end /\
  match pc_run (pc_initialize 3 30 5) [PSet 1 4 5; PInc 1 5; PInc 1 5; PDec 1 4; PGet 1 4; PGet 1 3; PSnapGet 1 5; PGet 2 22] with
  | Some (_, vs) => vs = [0; 1; 2; 4; 4; 0; 2; 0] | None => False end.
Proof. split; vm_compute; reflexivity. Qed.
