(** SparsePC.v - model of SparsePinCounts (mt-kahypar/datastructures/sparse_pin_counts.h), the pin count and
    connectivity structure of the LARGE_K preset.  One hyperedge is modelled: header, the inline array of
    min(k,8) entries and the external list; the records of different hyperedges are at disjoint offsets
    he * _size_of_pin_counts_per_he (:528-552) resp. in separate vectors, and the code requires exclusive writes per
    hyperedge.  Entries are (block, pin_count) with block -1 = kInvalidPartition.  An access outside a list and the
    decrement of a missing entry (null pointer) yield [None]. *)
From Verif Require Import Base.

Notation entry := (Z * Z)%type.
Definition invalid : entry := (-1, 0).
Record spc := mkSPC { s_con : nat; s_ext : bool; s_inl : list entry; s_exl : list entry }.

(** _entries_per_hyperedge, :372-373 (MAX_ENTRIES_PER_HYPEREDGE = 8, :66). *)
Definition cap (k : nat) : nat := Nat.min k 8.
(** init_pin_count_of_hyperedge, :428-438 (initialize, reset, clear). *)
Definition spc_init (k : nat) : spc := mkSPC 0 false (repeat invalid (cap k)) [].

Fixpoint set_nth {A} (l : list A) (i : nat) (v : A) : option (list A) :=
  match l, i with
  | [], _ => None
  | _ :: r, O => Some (v :: r)
  | x :: r, S j => match set_nth r j v with Some r' => Some (x :: r') | None => None end
  end.

(** The search loops of find_entry, :493-517: first index below [n] whose block is [p]. *)
Fixpoint find_idx (l : list entry) (n : nat) (p : Z) : option nat :=
  match n, l with
  | O, _ => None
  | S m, x :: r => if fst x =? p then Some 0%nat else match find_idx r m p with Some i => Some (S i) | None => None end
  | S _, [] => None
  end.
Definition find_entry (s : spc) (p : Z) : option nat :=
  if s_ext s then find_idx (s_exl s) (s_con s) p else find_idx (s_inl s) (Nat.min (s_con s) 8) p.
Definition active (s : spc) : list entry := if s_ext s then s_exl s else s_inl s.
Definition set_active (s : spc) (l : list entry) : spc :=
  if s_ext s then mkSPC (s_con s) true (s_inl s) l else mkSPC (s_con s) false l (s_exl s).

(** contains :224-228, pinCountInPart :280-286, connectivity :235-239. *)
Definition spc_contains (s : spc) (p : Z) : bool := match find_entry s p with Some _ => true | None => false end.
Definition spc_get (s : spc) (p : Z) : Z :=
  match find_entry s p with
  | Some i => match nth_error (active s) i with Some x => snd x | None => 0 end
  | None => 0
  end.
Definition spc_conn (s : spc) : Z := Z.of_nat (s_con s).
(** connectivitySet :241-253 with Iterator::next_valid_entry :141-168: valid entries among the first con. *)
Definition spc_set (s : spc) (k : nat) : list Z :=
  map fst (filter (fun x => (0 <=? fst x) && (fst x <? Z.of_nat k) && (0 <? snd x)) (firstn (s_con s) (active s))).

(** add_pin_count_entry_to_external, :474-488 (header con not yet incremented). *)
Definition add_external (s : spc) (p v : Z) : option spc :=
  if (s_con s <? length (s_exl s))%nat then
    match set_nth (s_exl s) (s_con s) (p, v) with
    | Some l => Some (mkSPC (s_con s) (s_ext s) (s_inl s) l)
    | None => None
    end
  else Some (mkSPC (s_con s) (s_ext s) (s_inl s) (s_exl s ++ [(p, v)])).
(** handle_overflow, :465-472. *)
Definition handle_overflow (k : nat) (s : spc) : spc :=
  mkSPC (s_con s) true (s_inl s) (s_exl s ++ firstn (cap k) (s_inl s)).
(** add_pin_count_entry, :440-463. *)
Definition add_entry (k : nat) (s : spc) (p v : Z) : option spc :=
  match
    (if s_ext s then add_external s p v
     else if (s_con s <? cap k)%nat then
       match set_nth (s_inl s) (s_con s) (p, v) with
       | Some l => Some (mkSPC (s_con s) false l (s_exl s))
       | None => None
       end
     else add_external (handle_overflow k s) p v) with
  | Some s' => Some (mkSPC (S (s_con s')) (s_ext s') (s_inl s') (s_exl s'))
  | None => None
  end.

(** setPinCountInPart :289-295 (appends unconditionally). *)
Definition spc_setpc (k : nat) (s : spc) (p v : Z) : option spc := add_entry k s p v.
(** incrementPinCountInPart :298-312. *)
Definition spc_inc (k : nat) (s : spc) (p : Z) : option (spc * Z) :=
  match find_entry s p with
  | Some i => match nth_error (active s) i with
              | Some x => match set_nth (active s) i (fst x, snd x + 1) with
                          | Some l => Some (set_active s l, snd x + 1) | None => None end
              | None => None end
  | None => match add_entry k s p 1 with Some s' => Some (s', 1) | None => None end
  end.
(** decrementPinCountInPart :315-351. *)
Definition spc_dec (s : spc) (p : Z) : option (spc * Z) :=
  match find_entry s p with
  | None => None
  | Some i =>
    match nth_error (active s) i with
    | None => None
    | Some x =>
      let c := snd x - 1 in
      match set_nth (active s) i (fst x, c) with
      | None => None
      | Some l1 =>
        if c =? 0 then
          let con := (s_con s - 1)%nat in
          (* the position overwritten: val for the inline list, a second search over the whole external list *)
          match (if s_ext s then find_idx l1 (length l1) p else Some i), nth_error l1 con with
          | Some pos, Some back =>
            match set_nth l1 pos back with
            | None => None
            | Some l2 => match set_nth l2 con invalid with
                         | None => None
                         | Some l3 => let s' := set_active s l3 in Some (mkSPC con (s_ext s') (s_inl s') (s_exl s'), 0)
                         end
            end
          | _, _ => None
          end
        else Some (set_active s l1, c)
      end
    end
  end.

Inductive spc_op := SSet (p v : Z) | SInc (p : Z) | SDec (p : Z) | SClear.
Definition spc_step (k : nat) (s : spc) (o : spc_op) : option (spc * Z) :=
  match o with
  | SSet p v => match spc_setpc k s p v with Some s' => Some (s', 0) | None => None end
  | SInc p => spc_inc k s p
  | SDec p => spc_dec s p
  | SClear => Some (spc_init k, 0)
  end.
Fixpoint spc_run (k : nat) (s : spc) (l : list spc_op) : option (spc * list Z) :=
  match l with
  | [] => Some (s, [])
  | o :: r => match spc_step k s o with
              | None => None
              | Some (s', v) => match spc_run k s' r with None => None | Some (s'', vs) => Some (s'', v :: vs) end
              end
  end.

(** ---- specification: a map from blocks to counts (0 = absent) ---- *)
Definition updA (A : Z -> Z) (p v : Z) : Z -> Z := fun q => if q =? p then v else A q.
Definition map_step (k : nat) (A : Z -> Z) (o : spc_op) : option ((Z -> Z) * Z) :=
  let ok := fun p => (0 <=? p) && (p <? Z.of_nat k) in
  match o with
  | SSet p v => if ok p && (A p =? 0) && (0 <? v) then Some (updA A p v, 0) else None
  | SInc p => if ok p then Some (updA A p (A p + 1), A p + 1) else None
  | SDec p => if ok p && (0 <? A p) then Some (updA A p (A p - 1), A p - 1) else None
  | SClear => Some (fun _ => 0, 0)
  end.
Fixpoint map_run (k : nat) (A : Z -> Z) (l : list spc_op) : option ((Z -> Z) * list Z) :=
  match l with
  | [] => Some (A, [])
  | o :: r => match map_step k A o with
              | None => None
              | Some (A', v) => match map_run k A' r with None => None | Some (A'', vs) => Some (A'', v :: vs) end
              end
  end.

(** ---- proofs ---- *)
Lemma set_nth_mid {A} (a b : list A) x v : set_nth (a ++ x :: b) (length a) v = Some (a ++ v :: b).
Proof. induction a as [|y r IH]; simpl; [reflexivity|]. rewrite IH. reflexivity. Qed.
Lemma nth_mid {A} (a b : list A) x : nth_error (a ++ x :: b) (length a) = Some x.
Proof. induction a as [|y r IH]; simpl; [reflexivity|exact IH]. Qed.
Lemma find_idx_none l : forall n p r, length l = n -> ~ In p (map fst l) -> find_idx (l ++ r) n p = None.
Proof.
  induction l as [|x l IH]; intros n p r Hn Hp; simpl in Hn; subst n; [destruct r; reflexivity|]. simpl.
  destruct (Z.eqb_spec (fst x) p) as [E|E]; [exfalso; apply Hp; left; exact E|].
  rewrite IH; [reflexivity|reflexivity|]. intros Hi. apply Hp. right. exact Hi.
Qed.
Lemma find_idx_some a : forall n p c r, (length a < n)%nat -> ~ In p (map fst a) -> find_idx (a ++ (p, c) :: r) n p = Some (length a).
Proof.
  induction a as [|x a IH]; intros n p c r Hn Hp; simpl in *; destruct n as [|n]; try lia; simpl.
  - rewrite Z.eqb_refl. reflexivity.
  - destruct (Z.eqb_spec (fst x) p) as [E|E]; [exfalso; apply Hp; left; exact E|].
    rewrite IH; [reflexivity|lia|]. intros Hi. apply Hp. right. exact Hi.
Qed.

(** The entry list [es] represents the map [A]. *)
Definition rep_list (k : nat) (es : list entry) (A : Z -> Z) : Prop :=
  NoDup (map fst es) /\ (forall b c, In (b, c) es -> 0 <= b < Z.of_nat k /\ 0 < c /\ A b = c) /\
  (forall b, ~ In b (map fst es) -> A b = 0).
Definition srep (k : nat) (s : spc) (A : Z -> Z) : Prop :=
  exists es r : list entry, active s = es ++ r /\ s_con s = length es /\ rep_list k es A /\
    (s_ext s = false -> length (s_inl s) = cap k /\ s_exl s = []) /\ (s_ext s = true -> Forall (fun x => x = invalid) r).

Lemma rep_in k es A b : rep_list k es A -> (In b (map fst es) <-> 0 < A b).
Proof.
  intros (N & E & Z0). split.
  - intros Hb. apply in_map_iff in Hb. destruct Hb as ([b' c] & <- & Hi). destruct (E _ _ Hi) as (_ & Hc & Ea). simpl. lia.
  - intros Hb. destruct (in_dec Z.eq_dec b (map fst es)) as [|Hn]; [assumption|]. rewrite (Z0 b Hn) in Hb. lia.
Qed.
Lemma in_split_entry (es : list entry) p : In p (map fst es) -> exists (a : list entry) c b, es = a ++ (p, c) :: b.
Proof.
  intros Hp. apply in_map_iff in Hp. destruct Hp as ([q c] & E & Hi). simpl in E. subst q.
  apply in_split in Hi. destruct Hi as (a & b & ->). eauto.
Qed.
Lemma find_entry_some k s A (a : list entry) p c b (r : list entry) : active s = (a ++ (p, c) :: b) ++ r -> s_con s = length (a ++ (p, c) :: b) ->
  rep_list k (a ++ (p, c) :: b) A -> (s_ext s = false -> length (s_inl s) = cap k) -> find_entry s p = Some (length a).
Proof.
  intros EA EC (N & _) HC. unfold find_entry, active in *. rewrite map_app in N. simpl in N.
  assert (Na : ~ In p (map fst a)). { apply NoDup_remove_2 in N. intros Hi. apply N. apply in_or_app. left. exact Hi. }
  rewrite app_length in EC. simpl in EC.
  assert (Hlen : (length a < s_con s)%nat) by lia.
  destruct (s_ext s).
  - rewrite EA, <- app_assoc. simpl. apply find_idx_some; [lia|exact Na].
  - specialize (HC eq_refl). assert (length (s_inl s) = (length a + S (length b) + length r)%nat).
    { rewrite EA, !app_length. simpl. lia. }
    rewrite EA, <- app_assoc. simpl. apply find_idx_some; [|exact Na]. unfold cap in HC. lia.
Qed.
Lemma find_entry_none k s A (es : list entry) p (r : list entry) : active s = es ++ r -> s_con s = length es -> rep_list k es A ->
  (s_ext s = false -> length (s_inl s) = cap k) -> A p = 0 -> find_entry s p = None.
Proof.
  intros EA EC HR HC H0. assert (Hn : ~ In p (map fst es)). { intros Hi. apply (rep_in k es A p HR) in Hi. lia. }
  unfold find_entry, active in *. destruct (s_ext s).
  - rewrite EA. apply find_idx_none; [symmetry; exact EC|exact Hn].
  - specialize (HC eq_refl). rewrite EA. apply find_idx_none; [|exact Hn].
    assert (length (s_inl s) = (length es + length r)%nat) by (rewrite EA, app_length; reflexivity). unfold cap in HC. lia.
Qed.

Lemma rep_add k es A p v : rep_list k es A -> 0 <= p < Z.of_nat k -> A p = 0 -> 0 < v -> rep_list k (es ++ [(p, v)]) (updA A p v).
Proof.
  intros HR Hp H0 Hv. assert (Hn : ~ In p (map fst es)). { intros Hi. apply (rep_in k es A p HR) in Hi. lia. }
  destruct HR as (N & E & Z0). split; [|split].
  - rewrite map_app. simpl. apply (Permutation_NoDup (l := p :: map fst es)); [apply Permutation_cons_append|constructor; assumption].
  - intros b c Hi. apply in_app_or in Hi. unfold updA. destruct Hi as [Hi|[Hi|[]]].
    + destruct (Z.eqb_spec b p) as [->|]; [exfalso; apply Hn; apply in_map_iff; exists (p, c); auto|]. apply E; exact Hi.
    + inversion Hi; subst. rewrite Z.eqb_refl. lia.
  - intros b Hb. rewrite map_app in Hb. unfold updA. destruct (Z.eqb_spec b p) as [->|].
    + exfalso. apply Hb. apply in_or_app. right. left. reflexivity.
    + apply Z0. intros Hi. apply Hb. apply in_or_app. left. exact Hi.
Qed.
Lemma rep_change k (a : list entry) p c b A v : rep_list k (a ++ (p, c) :: b) A -> 0 < v -> rep_list k (a ++ (p, v) :: b) (updA A p v).
Proof.
  intros (N & E & Z0) Hv.
  assert (Em : map fst (a ++ (p, v) :: b) = map fst (a ++ (p, c) :: b)) by (rewrite !map_app; reflexivity).
  split; [rewrite Em; exact N|]. split.
  - intros q d Hi. unfold updA. destruct (Z.eqb_spec q p) as [->|Hq].
    + assert (d = v).
      { apply in_app_or in Hi. destruct Hi as [Hi|[Hi|Hi]].
        - exfalso. rewrite map_app in N. apply NoDup_remove_2 in N. apply N, in_or_app. left. apply in_map_iff. exists (p, d). auto.
        - congruence.
        - exfalso. rewrite map_app in N. apply NoDup_remove_2 in N. apply N, in_or_app. right. apply in_map_iff. exists (p, d). auto. }
      subst d. destruct (E p c) as (Hp & _); [apply in_or_app; right; left; reflexivity|]. split; [exact Hp|]. split; [exact Hv|reflexivity].
    + apply E. apply in_app_or in Hi. apply in_or_app. destruct Hi as [Hi|[Hi|Hi]]; [left; exact Hi|congruence|right; right; exact Hi].
  - intros q Hq. rewrite Em in Hq. unfold updA. destruct (Z.eqb_spec q p) as [->|]; [|apply Z0; exact Hq].
    exfalso. apply Hq. rewrite map_app. apply in_or_app. right. left. reflexivity.
Qed.
Lemma rep_perm k es es' A : Permutation es es' -> rep_list k es A -> rep_list k es' A.
Proof.
  intros P (N & E & Z0). split; [|split].
  - eapply Permutation_NoDup; [apply Permutation_map; exact P|exact N].
  - intros b c Hi. apply E. eapply Permutation_in; [symmetry; exact P|exact Hi].
  - intros b Hb. apply Z0. intros Hi. apply Hb. eapply Permutation_in; [apply Permutation_map; exact P|exact Hi].
Qed.
Lemma rep_remove k (a : list entry) p c b A : rep_list k (a ++ (p, c) :: b) A -> rep_list k (a ++ b) (updA A p 0).
Proof.
  intros (N & E & Z0). rewrite map_app in N. pose proof (NoDup_remove_1 _ _ _ N) as N1. pose proof (NoDup_remove_2 _ _ _ N) as N2.
  split; [rewrite map_app; exact N1|]. split.
  - intros q d Hi. unfold updA. destruct (Z.eqb_spec q p) as [->|].
    + exfalso. apply N2. rewrite <- map_app. apply in_map_iff. exists (p, d). auto.
    + apply E. apply in_app_or in Hi. apply in_or_app. simpl. tauto.
  - intros q Hq. unfold updA. destruct (Z.eqb_spec q p) as [->|Hne]; [reflexivity|]. apply Z0.
    rewrite map_app in *. intros Hi. apply Hq. apply in_app_or in Hi. apply in_or_app. simpl in Hi. destruct Hi as [|[->|]]; tauto.
Qed.

Lemma add_entry_ok k s A p v : srep k s A -> 0 <= p < Z.of_nat k -> A p = 0 -> 0 < v ->
  exists s', add_entry k s p v = Some s' /\ srep k s' (updA A p v).
Proof.
  intros (es & r & EA & EC & HR & HI & HX) Hp H0 Hv. pose proof (rep_add k es A p v HR Hp H0 Hv) as HR'.
  unfold add_entry. destruct s as [con ext inl exl]. unfold active in EA. simpl in *.
  destruct ext.
  - specialize (HX eq_refl). unfold add_external. simpl. subst con exl. rewrite app_length.
    destruct (Nat.ltb_spec (length es) (length es + length r)) as [Hlt|Hge].
    + destruct r as [|x r]; [simpl in Hlt; lia|]. rewrite set_nth_mid. eexists. split; [reflexivity|].
      exists (es ++ [(p, v)]), r. simpl. split; [rewrite <- app_assoc; reflexivity|]. split; [rewrite app_length; simpl; lia|].
      split; [exact HR'|]. split; [discriminate|]. intros _. inversion HX; assumption.
    + destruct r as [|x r]; [|simpl in Hge; lia]. eexists. split; [reflexivity|].
      exists (es ++ [(p, v)]), []. simpl. rewrite app_nil_r. split; [rewrite app_nil_r; reflexivity|].
      split; [rewrite app_length; simpl; lia|]. split; [exact HR'|]. split; [discriminate|constructor].
  - destruct (HI eq_refl) as [HL ->]. subst inl con.
    destruct (Nat.ltb_spec (length es) (cap k)) as [Hlt|Hge].
    + destruct r as [|x r]; [rewrite app_nil_r in HL; lia|]. rewrite set_nth_mid. eexists. split; [reflexivity|].
      exists (es ++ [(p, v)]), r. simpl. split; [rewrite <- app_assoc; reflexivity|]. split; [rewrite app_length; simpl; lia|].
      split; [exact HR'|]. split; [|discriminate]. intros _. split; [|reflexivity]. rewrite app_length in *. simpl in *. lia.
    + destruct r as [|x r]; [|rewrite app_length in HL; simpl in HL; lia]. rewrite app_nil_r in *.
      unfold add_external, handle_overflow. simpl. rewrite <- HL, firstn_all, Nat.ltb_irrefl. eexists. split; [reflexivity|].
      exists (es ++ [(p, v)]), []. simpl. rewrite app_nil_r. split; [reflexivity|]. split; [rewrite app_length; simpl; lia|].
      split; [exact HR'|]. split; [discriminate|constructor].
Qed.

Lemma set_active_ext s l : s_ext (set_active s l) = s_ext s. Proof. unfold set_active. destruct (s_ext s); reflexivity. Qed.
Lemma set_active_con s l : s_con (set_active s l) = s_con s. Proof. unfold set_active. destruct (s_ext s); reflexivity. Qed.
Lemma set_active_act s l : active (set_active s l) = l. Proof. unfold set_active, active. destruct (s_ext s) eqn:E; reflexivity. Qed.
Lemma set_active_inl k s l es r : (s_ext s = false -> length (s_inl s) = cap k /\ s_exl s = []) -> active s = es ++ r ->
  length l = length (es ++ r) -> s_ext (set_active s l) = false -> length (s_inl (set_active s l)) = cap k /\ s_exl (set_active s l) = [].
Proof.
  intros HI EA HL HX. rewrite set_active_ext in HX. destruct (HI HX) as [H1 H2]. unfold set_active, active in *. rewrite HX in *.
  simpl. split; [|exact H2]. rewrite HL, <- EA. exact H1.
Qed.

Lemma inc_ok k s A p : srep k s A -> 0 <= p < Z.of_nat k ->
  exists s', spc_inc k s p = Some (s', A p + 1) /\ srep k s' (updA A p (A p + 1)).
Proof.
  intros HS Hp. pose proof HS as (es & r & EA & EC & HR & HI & HX).
  destruct (Z_lt_ge_dec 0 (A p)) as [Hpos|Hz].
  - destruct (in_split_entry es p) as (a & c & b & ->); [apply (rep_in k es A p HR); exact Hpos|].
    assert (Ec : A p = c) by (apply HR; apply in_or_app; right; left; reflexivity).
    unfold spc_inc. rewrite (find_entry_some k s A a p c b r EA EC HR (fun h => proj1 (HI h))).
    rewrite EA, <- app_assoc. simpl. rewrite nth_mid, set_nth_mid. simpl. eexists. split; [rewrite Ec; reflexivity|].
    exists (a ++ (p, c + 1) :: b), r. rewrite set_active_act, set_active_con, set_active_ext. split; [rewrite <- app_assoc; reflexivity|].
    split; [rewrite EC, !app_length; reflexivity|]. split; [rewrite Ec; apply rep_change with c; [exact HR|lia]|]. split; [|exact HX].
    intros Hext. apply (set_active_inl k s _ _ r HI EA); [rewrite !app_length; simpl; rewrite !app_length; lia|rewrite set_active_ext; exact Hext].
  - assert (A p = 0).
    { destruct (in_dec Z.eq_dec p (map fst es)) as [Hi|Hn]; [apply (rep_in k es A p HR) in Hi; lia|apply HR; exact Hn]. }
    unfold spc_inc. rewrite (find_entry_none k s A es p r EA EC HR (fun h => proj1 (HI h)) H).
    destruct (add_entry_ok k s A p 1 HS Hp H ltac:(lia)) as (s' & E & HS'). rewrite E, H. exists s'. auto.
Qed.

Lemma dec_ok k s A p : srep k s A -> 0 <= p < Z.of_nat k -> 0 < A p ->
  exists s', spc_dec s p = Some (s', A p - 1) /\ srep k s' (updA A p (A p - 1)).
Proof.
  intros HS Hp Hpos. pose proof HS as (es & r & EA & EC & HR & HI & HX).
  destruct (in_split_entry es p) as (a & c & b & ->); [apply (rep_in k es A p HR); exact Hpos|].
  assert (Ec : A p = c) by (apply HR; apply in_or_app; right; left; reflexivity).
  unfold spc_dec. rewrite (find_entry_some k s A a p c b r EA EC HR (fun h => proj1 (HI h))).
  rewrite EA, <- app_assoc. simpl. rewrite nth_mid, set_nth_mid. simpl. rewrite Ec in *.
  assert (Na : ~ In p (map fst a)).
  { destruct HR as (N & _). rewrite map_app in N. simpl in N. apply NoDup_remove_2 in N. intros Hi. apply N, in_or_app. left. exact Hi. }
  destruct (Z.eqb_spec (c - 1) 0) as [E0|En].
  - assert (EF : (if s_ext s then find_idx (a ++ (p, c - 1) :: b ++ r) (length (a ++ (p, c - 1) :: b ++ r)) p else Some (length a)) = Some (length a)).
    { destruct (s_ext s); [|reflexivity]. apply find_idx_some; [rewrite app_length; simpl; lia|exact Na]. }
    rewrite EF. rewrite E0.
    assert (HR2 : rep_list k (a ++ b) (updA A p 0)) by (eapply rep_remove; exact HR).
    destruct (exists_last (l := (p, 0) :: b)) as (b' & back & Eb); [discriminate|].
    assert (Hcon : (s_con s - 1)%nat = length (a ++ b')).
    { rewrite EC, !app_length. apply (f_equal (@length _)) in Eb. rewrite app_length in Eb. simpl in *. lia. }
    rewrite Hcon. change ((p, 0) :: b ++ r) with (((p, 0) :: b) ++ r). rewrite Eb.
    replace (a ++ (b' ++ [back]) ++ r) with ((a ++ b') ++ back :: r) by (rewrite <- !app_assoc; reflexivity).
    rewrite nth_mid.
    destruct b' as [|y b''].
    + (* val is the last entry *)
      simpl in Eb. inversion Eb; subst b. rewrite app_nil_r in *. rewrite set_nth_mid. rewrite set_nth_mid.
      eexists. split; [reflexivity|]. exists a, (invalid :: r). rewrite set_active_ext.
      assert (EA2 : active (mkSPC (length a) (s_ext s) (s_inl (set_active s (a ++ invalid :: r))) (s_exl (set_active s (a ++ invalid :: r)))) = a ++ invalid :: r).
      { rewrite <- (set_active_act s (a ++ invalid :: r)) at 3. unfold active. rewrite set_active_ext. simpl. reflexivity. }
      split; [exact EA2|]. split; [reflexivity|]. split; [exact HR2|]. split.
      * intros Hext. simpl in *. apply (set_active_inl k s _ _ r HI EA); [rewrite !app_length; simpl; lia|rewrite set_active_ext; exact Hext].
      * intros Hext. constructor; [reflexivity|apply HX; exact Hext].
    + simpl in Eb. inversion Eb; subst y b.
      replace ((a ++ (p, 0) :: b'') ++ back :: r) with (a ++ (p, 0) :: (b'' ++ back :: r)) by (rewrite <- app_assoc; reflexivity).
      rewrite set_nth_mid.
      replace (length (a ++ (p, 0) :: b'')) with (length (a ++ back :: b'')) by (rewrite !app_length; reflexivity).
      replace (a ++ back :: b'' ++ back :: r) with ((a ++ back :: b'') ++ back :: r) by (rewrite <- app_assoc; reflexivity).
      rewrite set_nth_mid. set (L := (a ++ back :: b'') ++ invalid :: r).
      eexists. split; [reflexivity|]. exists (a ++ back :: b''), (invalid :: r). rewrite set_active_ext.
      assert (EA2 : active (mkSPC (length (a ++ back :: b'')) (s_ext s) (s_inl (set_active s L)) (s_exl (set_active s L))) = L).
      { rewrite <- (set_active_act s L) at 3. unfold active. rewrite set_active_ext. simpl. reflexivity. }
      split; [exact EA2|]. split; [reflexivity|]. split.
      * eapply rep_perm; [|exact HR2]. apply Permutation_app_head. symmetry. apply Permutation_cons_append.
      * split.
        -- intros Hext. simpl in *. apply (set_active_inl k s _ _ r HI EA); [|rewrite set_active_ext; exact Hext].
           unfold L. rewrite !app_length. simpl. rewrite !app_length. simpl. lia.
        -- intros Hext. constructor; [reflexivity|apply HX; exact Hext].
  - eexists. split; [reflexivity|]. exists (a ++ (p, c - 1) :: b), r. rewrite set_active_act, set_active_con, set_active_ext.
    split; [rewrite <- app_assoc; reflexivity|]. split; [rewrite EC, !app_length; reflexivity|].
    split; [apply rep_change with c; [exact HR|lia]|]. split; [|exact HX].
    intros Hext. apply (set_active_inl k s _ _ r HI EA); [rewrite !app_length; simpl; rewrite !app_length; lia|rewrite set_active_ext; exact Hext].
Qed.

Lemma srep_init k : srep k (spc_init k) (fun _ => 0).
Proof.
  exists [], (repeat invalid (cap k)). split; [reflexivity|]. split; [reflexivity|]. split; [|split].
  - split; [constructor|]. split; [intros b c []|reflexivity].
  - intros _. split; [apply repeat_length|reflexivity].
  - discriminate.
Qed.
Lemma spc_step_sim k s A o A' v : srep k s A -> map_step k A o = Some (A', v) -> exists s', spc_step k s o = Some (s', v) /\ srep k s' A'.
Proof.
  intros HS E. destruct o as [p x|p|p|]; cbn [map_step] in E; cbn [spc_step].
  - destruct (_ && _) eqn:Ec in E; [|discriminate]. inversion E; subst. rewrite !andb_true_iff in Ec.
    destruct (add_entry_ok k s A p x HS ltac:(lia) ltac:(lia) ltac:(lia)) as (s' & Es & HS'). unfold spc_setpc. rewrite Es. eauto.
  - destruct (_ && _) eqn:Ec in E; [|discriminate]. inversion E; subst. rewrite !andb_true_iff in Ec. apply inc_ok; [exact HS|lia].
  - destruct (_ && _) eqn:Ec in E; [|discriminate]. inversion E; subst. rewrite !andb_true_iff in Ec. apply dec_ok; [exact HS|lia|lia].
  - inversion E; subst. eexists. split; [reflexivity|apply srep_init].
Qed.
Lemma spc_run_sim k l : forall s A A' vs, srep k s A -> map_run k A l = Some (A', vs) -> exists s', spc_run k s l = Some (s', vs) /\ srep k s' A'.
Proof.
  induction l as [|o r IH]; intros s A A' vs HS E; simpl in E.
  - inversion E; subst. exists s. auto.
  - destruct (map_step k A o) as [[A1 v]|] eqn:E1; [|discriminate].
    destruct (map_run k A1 r) as [[A2 vs']|] eqn:E2; [|discriminate]. inversion E; subst.
    destruct (spc_step_sim k s A o A1 v HS E1) as (s1 & P1 & HS1). destruct (IH s1 A1 A' vs' HS1 E2) as (s2 & P2 & HS2).
    exists s2. simpl. rewrite P1, P2. auto.
Qed.

(** C15: for every operation sequence admitted by a plain map, the sparse structure returns the same results and
    afterwards reports the same counts, membership, connectivity and set of blocks. *)
Theorem C15_sparse_pin_counts_are_a_map : forall k ops A vs,
  map_run k (fun _ => 0) ops = Some (A, vs) ->
  exists s, spc_run k (spc_init k) ops = Some (s, vs) /\
    (forall p, 0 <= p < Z.of_nat k -> spc_get s p = A p /\ (spc_contains s p = true <-> 0 < A p)) /\
    NoDup (spc_set s k) /\ (forall p, In p (spc_set s k) <-> 0 <= p < Z.of_nat k /\ 0 < A p) /\
    spc_conn s = Z.of_nat (length (spc_set s k)).
Proof.
  intros k ops A vs E. destruct (spc_run_sim k ops (spc_init k) (fun _ => 0) A vs (srep_init k) E) as (s & P & HS).
  exists s. split; [exact P|]. destruct HS as (es & r & EA & EC & HR & HI & HX).
  assert (ES : spc_set s k = map fst es).
  { unfold spc_set. rewrite EA, EC, firstn_app, Nat.sub_diag, firstn_all. simpl. rewrite app_nil_r. f_equal.
    destruct HR as (_ & HE & _). clear -HE. induction es as [|[b c] l IH]; [reflexivity|]. simpl.
    destruct (HE b c (or_introl eq_refl)) as (H1 & H2 & _). replace (_ && _) with true by lia. f_equal. apply IH.
    intros b' c' Hi. apply HE. right. exact Hi. }
  split; [|split; [|split]].
  - intros p Hp. destruct (Z_lt_ge_dec 0 (A p)) as [Hpos|Hz].
    + destruct (in_split_entry es p) as (a & c & b & ->); [apply (rep_in k es A p HR); exact Hpos|].
      assert (Ec : A p = c) by (apply HR; apply in_or_app; right; left; reflexivity).
      unfold spc_get, spc_contains. rewrite (find_entry_some k s A a p c b r EA EC HR (fun h => proj1 (HI h))).
      rewrite EA, <- app_assoc. simpl. rewrite nth_mid. simpl. split; [lia|tauto].
    + assert (A p = 0).
      { destruct (in_dec Z.eq_dec p (map fst es)) as [Hi|Hn]; [apply (rep_in k es A p HR) in Hi; lia|apply HR; exact Hn]. }
      unfold spc_get, spc_contains. rewrite (find_entry_none k s A es p r EA EC HR (fun h => proj1 (HI h)) H).
      split; [lia|split; [discriminate|lia]].
  - rewrite ES. apply HR.
  - intros p. rewrite ES. rewrite (rep_in k es A p HR). split; [|tauto]. intros Hp. split; [|exact Hp].
    apply (rep_in k es A p HR) in Hp. apply in_map_iff in Hp. destruct Hp as ([q c] & <- & Hi). apply HR in Hi. tauto.
  - rewrite ES, map_length. unfold spc_conn. rewrite EC. reflexivity.
Qed.
(** Non-vacuity: ten blocks of a 12-block partition (overflow into the external list), removals and re-insertion. *)
Definition ex_spc_ops : list spc_op := map SInc [0;1;2;3;4;5;6;7;8;9;3] ++ [SDec 1; SDec 3; SDec 9; SInc 10; SSet 1 7].
Example ex_C15 :
  match map_run 12 (fun _ => 0) ex_spc_ops with Some (A, _) => map A [0;1;2;3;8;9;10;11] = [1;7;1;1;1;0;1;0] | None => False end /\
  match spc_run 12 (spc_init 12) ex_spc_ops with
  | Some (s, _) => s_ext s = true /\ map (spc_get s) [0;1;2;3;8;9;10;11] = [1;7;1;1;1;0;1;0] /\ spc_conn s = 10 | None => False end.
Proof. split; vm_compute; repeat split; reflexivity. Qed.
(** setPinCountInPart on a block that is already present breaks the structure (it appends a second entry): the
    precondition of SSet is needed. *)
Example ex_set_twice : match spc_run 4 (spc_init 4) [SSet 1 2; SSet 1 3] with
  | Some (s, _) => spc_get s 1 = 2 /\ spc_conn s = 2 | None => False end.
Proof. vm_compute. split; reflexivity. Qed.
