(** PartFile.v - C35: partition files, mt-kahypar/io/hypergraph_io.cpp:454-506 (readPartitionFileImpl, readPartitionFile,
    writePartitionFile).  Also used for fixed vertex files (hypergraph_factory.cpp:281, lib/mtkahypar.cpp:484). *)
From Verif Require Import Base Construct IO IORead.

(** *** Model *)
(** `file >> part` for an int (std::istream, "C" locale): skip white space, optional sign, maximal digit run; fails
    (ending the read loop) if there is no digit or the value is outside of int.  The input ends where the list ends. *)
Definition is_ws (c : Z) : bool := (c =? 32) || ((9 <=? c) && (c <=? 13)).
Definition is_digit (c : Z) : bool := (48 <=? c) && (c <=? 57).
Fixpoint skip_ws (l : list Z) : list Z := match l with c :: r => if is_ws c then skip_ws r else l | [] => [] end.
Fixpoint take_digits (acc : Z) (seen : bool) (l : list Z) : option Z * list Z :=
  match l with
  | c :: r => if is_digit c then take_digits (10 * acc + (c - 48)) true r else (if seen then Some acc else None, l)
  | [] => (if seen then Some acc else None, [])
  end.
Definition INT_MIN : Z := - 2 ^ 31.
Definition INT_MAX : Z := 2 ^ 31 - 1.
Definition extract_int (l : list Z) : option (Z * list Z) :=
  let l := skip_ws l in
  let '(neg, l) := match l with 45 :: r => (true, r) | 43 :: r => (false, r) | _ => (false, l) end in
  match take_digits 0 false l with
  | (Some a, r) => let v := if neg then - a else a in if (INT_MIN <=? v) && (v <=? INT_MAX) then Some (v, r) else None
  | (None, _) => None
  end.
(** readPartitionFileImpl, :455-475: the loop `while (file >> part)`.  [arr] is the caller's array; every successful extraction
    consumes a byte, so [fuel] > length of the input bounds nothing. *)
Fixpoint rp_loop (fuel : nat) (n : nat) (l : list Z) (hn : nat) (arr : nat -> Z) : res (nat * (nat -> Z)) :=
  match fuel with
  | O => Fault
  | S f => match extract_int l with
           | None => Ok (hn, arr)
           | Some (v, r) => if (n <=? hn)%nat then Err else rp_loop f n r (S hn) (upd arr hn v)
           end
  end.
Definition read_partition (file : list Z) (n : nat) (arr : nat -> Z) : res (nat -> Z) :=
  '(hn, arr) <- rp_loop (S (length file)) n file 0 arr ;; if (hn <? n)%nat then Err else Ok arr.

(** `out_stream << part << std::endl` for an int: sign, decimal digits without leading zeros, newline. *)
Fixpoint dec (fuel : nat) (v : Z) : list Z := if v <? 10 then [48 + v] else match fuel with O => [] | S f => dec f (v / 10) ++ [48 + v mod 10] end.
Definition print_int (v : Z) : list Z := if v <? 0 then 45 :: dec 10 (- v) else dec 10 v.
(** writePartitionFile, :489-506: [n] = initialNumNodes(), [nodes] = the enabled nodes *)
Definition write_partition (n : nat) (nodes : list nat) (part : nat -> Z) : list Z :=
  let arr := fold_left (fun a u => upd a u (part u)) nodes (fun _ => -1) in
  flat_map (fun u => print_int (arr u) ++ [10]) (seq 0 n).

(** *** Specification: files consisting of integers separated by white space *)
Definition whites (s : list Z) : Prop := Forall (fun c => c = 32 \/ 9 <= c <= 13) s.
(** [IntLit v s]: [s] is an optional sign followed by digits, with value [v]. *)
Definition IntLit (v : Z) (s : list Z) : Prop :=
  exists d, digits d /\ ((s = d /\ v = val d) \/ (s = 43 :: d /\ v = val d) \/ (s = 45 :: d /\ v = - val d)).
Inductive IntFile : list Z -> list Z -> Prop :=
| if_nil w : whites w -> IntFile [] w
| if_last v w s : whites w -> IntLit v s -> IntFile [v] (w ++ s)
| if_cons v vs w s w' r : whites w -> IntLit v s -> whites w' -> w' <> [] -> IntFile vs r -> IntFile (v :: vs) (w ++ s ++ w' ++ r).
Definition int32 (v : Z) : Prop := - 2 ^ 31 <= v <= 2 ^ 31 - 1.

(** *** Proofs *)
Lemma is_ws_true c : (c = 32 \/ 9 <= c <= 13) <-> is_ws c = true.
Proof. unfold is_ws. rewrite orb_true_iff, andb_true_iff, Z.eqb_eq, !Z.leb_le. lia. Qed.
Lemma skip_ws_app w : whites w -> forall l, skip_ws (w ++ l) = skip_ws l.
Proof. induction 1 as [|c w Hc _ IH]; intros l; [reflexivity|]. cbn. rewrite (proj1 (is_ws_true c) Hc). apply IH. Qed.
Lemma take_digits_app d : Forall (fun c => 48 <= c <= 57) d -> forall t a seen, (forall c t', t = c :: t' -> is_digit c = false) ->
  take_digits a seen (d ++ t) = (if seen || negb (Nat.eqb (length d) 0) then Some (num_end a d) else None, t).
Proof.
  induction 1 as [|c d Hc _ IH]; intros t a seen Ht.
  - cbn. rewrite orb_false_r. destruct t as [|c t]; [destruct seen; reflexivity|]. cbn. rewrite (Ht c t eq_refl). destruct seen; reflexivity.
  - cbn [app take_digits]. unfold is_digit. rewrite (proj2 (Z.leb_le 48 c)), (proj2 (Z.leb_le c 57)) by lia. cbn [andb]. rewrite (IH t _ true Ht). cbn [orb length Nat.eqb negb].
    rewrite orb_true_r. reflexivity.
Qed.
Definition ends_word (t : list Z) : Prop := forall c t', t = c :: t' -> is_digit c = false.
Lemma extract_lit v w s t : whites w -> IntLit v s -> ends_word t -> extract_int (w ++ s ++ t) = if (INT_MIN <=? v) && (v <=? INT_MAX) then Some (v, t) else None.
Proof.
  intros Hw (d & [D1 D2] & Hs) Ht. unfold extract_int. rewrite skip_ws_app by exact Hw.
  assert (T : take_digits 0 false (d ++ t) = (Some (val d), t)).
  { rewrite (take_digits_app d D2 t 0 false Ht). destruct d; [congruence|reflexivity]. }
  destruct Hs as [[-> ->]|[[-> ->]|[-> ->]]].
  - destruct d as [|c d]; [congruence|]. inversion D2 as [|? ? Hc D3]; subst. cbn [app skip_ws].
    destruct (is_ws c) eqn:Ec; [apply is_ws_true in Ec; lia|].
    assert (X : match c :: d ++ t with 45 :: r => (true, r) | 43 :: r => (false, r) | _ => (false, c :: d ++ t) end = (false, c :: d ++ t)).
    { clear - Hc. destruct (Z.eq_dec c 45); [lia|]. destruct (Z.eq_dec c 43); [lia|]. destruct c as [|c|c]; try reflexivity. repeat (destruct c as [c|c|]; try reflexivity; try lia). }
    rewrite X. change (c :: d ++ t) with ((c :: d) ++ t). rewrite T. reflexivity.
  - cbn [app skip_ws]. change (is_ws 43) with false. cbv iota. rewrite T. reflexivity.
  - cbn [app skip_ws]. change (is_ws 45) with false. cbv iota. rewrite T. reflexivity.
Qed.
Lemma whites_ends w r : whites w -> w <> [] -> ends_word (w ++ r).
Proof.
  intros H N c t E. destruct w as [|c0 w]; [congruence|]. inversion H; subst. injection E as <- _. unfold is_digit. apply andb_false_iff. rewrite !Z.leb_gt. lia.
Qed.
Lemma extract_ws w : whites w -> extract_int w = None.
Proof. intros H. unfold extract_int. rewrite <- (app_nil_r w), (skip_ws_app w H). reflexivity. Qed.
Lemma IntLit_len v s : IntLit v s -> (1 <= length s)%nat.
Proof. intros (d & [D _] & [[-> _]|[[-> _]|[-> _]]]); destruct d; try congruence; cbn; lia. Qed.
Lemma int32_bool v : int32 v -> (INT_MIN <=? v) && (v <=? INT_MAX) = true.
Proof. unfold int32, INT_MIN, INT_MAX. intros. rewrite andb_true_iff, !Z.leb_le. lia. Qed.

Lemma rp_loop_spec n : forall vs l, IntFile vs l -> Forall int32 vs -> forall fuel hn arr, (length l < fuel)%nat ->
  rp_loop fuel n l hn arr = if (n <? hn + length vs)%nat && negb (Nat.eqb (length vs) 0) then Err
                            else Ok ((hn + length vs)%nat, fold_left (fun a iv => upd a (fst iv) (snd iv)) (combine (seq hn (length vs)) vs) arr).
Proof.
  intros vs l H. induction H as [w W|v w s W L|v vs w s w' r W L W' N R IH]; intros F fuel hn arr Hf; (destruct fuel as [|f]; [lia|]); cbn [rp_loop].
  - rewrite extract_ws by exact W. cbn. rewrite Nat.add_0_r, andb_false_r. reflexivity.
  - inversion F; subst. pose proof (extract_lit v w s [] W L ltac:(intros c t E; discriminate)) as X. rewrite app_nil_r, int32_bool in X by assumption. rewrite X.
    cbn [length Nat.eqb negb]. rewrite andb_true_r. destruct (Nat.leb_spec n hn), (Nat.ltb_spec n (hn + 1)); try lia; [reflexivity|].
    destruct f as [|f]; [rewrite app_length in Hf; pose proof (IntLit_len _ _ L); lia|]. cbn. f_equal. f_equal. lia.
  - inversion F as [|? ? F1 F2]; subst. rewrite (extract_lit v w s (w' ++ r) W L (whites_ends _ _ W' N)), int32_bool by assumption.
    pose proof (IntLit_len _ _ L). rewrite !app_length in Hf.
    assert (F' : IntFile vs (w' ++ r)).
    { clear - R W'. inversion R as [w W|v w s W L|v vs0 w s w2 r2 W L W2 N R2]; subst.
      - constructor. apply Forall_app; auto.
      - rewrite app_assoc. constructor; [apply Forall_app; auto|assumption].
      - rewrite app_assoc. constructor; try assumption. apply Forall_app; auto. }
    assert (Step : rp_loop f n (w' ++ r) (S hn) (upd arr hn v) = rp_loop f n r (S hn) (upd arr hn v)).
    { destruct f as [|f0]; [reflexivity|]. cbn [rp_loop]. replace (extract_int (w' ++ r)) with (extract_int r); [reflexivity|]. unfold extract_int. rewrite skip_ws_app by exact W'. reflexivity. }
    rewrite Step, (IH F2) by lia. cbn [length seq combine fold_left fst snd Nat.eqb negb]. rewrite andb_true_r.
    destruct (Nat.leb_spec n hn).
    + destruct (Nat.ltb_spec n (hn + S (length vs))); [reflexivity|lia].
    + rewrite <- Nat.add_succ_comm. destruct (length vs) as [|m] eqn:E; cbn [Nat.eqb negb]; [rewrite andb_false_r|rewrite andb_true_r].
      * destruct (Nat.ltb_spec n (S hn + 0)); [lia|]. rewrite Nat.add_0_r. reflexivity.
      * reflexivity.
Qed.
(** C35: a file of whitespace separated integers is accepted exactly if it has one entry per node; then node [i] gets the
    i-th entry (and nothing behind the array is written). *)
Theorem C35_read_partition file vs n arr : IntFile vs file -> Forall int32 vs ->
  (length vs = n -> exists a, read_partition file n arr = Ok a /\ forall i, a i = if (i <? n)%nat then nth i vs 0 else arr i) /\
  (length vs <> n -> read_partition file n arr = Err).
Proof.
  intros H F. unfold read_partition. rewrite (rp_loop_spec n vs file H F) by lia. cbn [Nat.add]. split.
  - intros E. rewrite E, Nat.ltb_irrefl. cbn [andb bind]. rewrite Nat.ltb_irrefl. eexists. split; [reflexivity|]. intros i. subst n. clear.
    enough (G : forall vs hn (arr : nat -> Z) i, fold_left (fun a iv => upd a (fst iv) (snd iv)) (combine (seq hn (length vs)) vs) arr i = if (hn <=? i)%nat && (i <? hn + length vs)%nat then nth (i - hn) vs 0 else arr i).
    { rewrite G. cbn. rewrite Nat.sub_0_r. reflexivity. }
    clear. induction vs as [|v vs IH]; intros hn arr i.
    + cbn [length seq combine fold_left]. destruct (Nat.leb_spec hn i), (Nat.ltb_spec i (hn + 0)); cbn [andb]; try reflexivity; exfalso; lia.
    + cbn [length seq combine fold_left fst snd]. rewrite IH. destruct (Nat.eq_dec i hn) as [->|N].
      * destruct (Nat.leb_spec (S hn) hn); [lia|]. destruct (Nat.leb_spec hn hn); [|lia]. destruct (Nat.ltb_spec hn (hn + S (length vs))); [|lia]. cbn [andb]. rewrite upd_same, Nat.sub_diag. reflexivity.
      * rewrite upd_other by exact N. destruct (Nat.leb_spec (S hn) i), (Nat.ltb_spec i (S hn + length vs)), (Nat.leb_spec hn i), (Nat.ltb_spec i (hn + S (length vs))); cbn [andb]; try (exfalso; lia); try reflexivity.
        replace (i - hn)%nat with (S (i - S hn)) by lia. reflexivity.
  - intros E. destruct (Nat.ltb_spec n (length vs)); cbn [andb].
    + destruct (Nat.eqb_spec (length vs) 0); [lia|]. reflexivity.
    + cbn [bind]. destruct (Nat.ltb_spec (length vs) n); [reflexivity|lia].
Qed.

(** printing *)
Lemma dec_digits fuel : forall v, 0 <= v < 10 ^ (Z.of_nat fuel + 1) -> digits (dec fuel v) /\ val (dec fuel v) = v.
Proof.
  induction fuel as [|f IH]; intros v Hv; cbn [dec]; destruct (Z.ltb_spec v 10).
  1,3: split; [split; [discriminate|repeat constructor; lia]|unfold val; cbn [fold_left]; lia].
  - change (10 ^ (Z.of_nat 0 + 1)) with 10 in Hv. lia.
  - replace (Z.of_nat (S f) + 1) with (Z.succ (Z.of_nat f + 1)) in Hv by lia. rewrite Z.pow_succ_r in Hv by lia.
    destruct (IH (v / 10)) as [[D1 D2] E]. { split; [apply Z.div_pos; lia|apply Z.div_lt_upper_bound; lia]. }
    pose proof (Z.mod_pos_bound v 10 ltac:(lia)). split.
    + split; [destruct (dec f (v / 10)); discriminate|]. apply Forall_app. split; [exact D2|repeat constructor; lia].
    + unfold val in *. rewrite fold_left_app. cbn [fold_left]. rewrite E. pose proof (Z.div_mod v 10 ltac:(lia)). lia.
Qed.
Lemma print_int_lit v : int32 v -> IntLit v (print_int v).
Proof.
  unfold int32. intros H. unfold print_int. destruct (Z.ltb_spec v 0).
  - destruct (dec_digits 10 (- v)) as [D E]. { change (10 ^ (Z.of_nat 10 + 1)) with 100000000000. lia. }
    exists (dec 10 (- v)). split; [exact D|]. right; right. split; [reflexivity|]. lia.
  - destruct (dec_digits 10 v) as [D E]. { change (10 ^ (Z.of_nat 10 + 1)) with 100000000000. lia. }
    exists (dec 10 v). split; [exact D|]. left. split; [reflexivity|]. lia.
Qed.
Lemma printed_file vs : Forall int32 vs -> IntFile vs (flat_map (fun v => print_int v ++ [10]) vs).
Proof.
  induction 1 as [|v vs Hv _ IH]; cbn [flat_map]; [constructor; constructor|]. rewrite <- app_assoc. change (print_int v ++ [10] ++ ?x) with ([] ++ print_int v ++ [10] ++ x).
  apply if_cons; [constructor|apply print_int_lit, Hv|repeat constructor; lia|discriminate|exact IH].
Qed.
Lemma fold_part_outside nodes (part : nat -> Z) : forall arr u, fold_left (fun a u => upd a u (part u)) nodes arr u = if mem u nodes then part u else arr u.
Proof.
  induction nodes as [|x nodes IH]; intros arr u; [reflexivity|]. cbn [fold_left]. rewrite IH. unfold mem. cbn [existsb]. destruct (Nat.eqb_spec u x) as [->|E]; cbn [orb].
  - destruct (existsb (Nat.eqb x) nodes); [reflexivity|apply upd_same].
  - destruct (existsb (Nat.eqb u) nodes); [reflexivity|apply upd_other, E].
Qed.
(** C35: writing a partition and reading it back yields the block of every node, -1 for nodes that are not part of the
    hypergraph, and leaves everything behind the array alone. *)
Theorem C35_partition_roundtrip n nodes part arr : (forall u, In u nodes -> (u < n)%nat /\ int32 (part u)) ->
  exists a, read_partition (write_partition n nodes part) n arr = Ok a /\
    (forall u, In u nodes -> a u = part u) /\ (forall u, (u < n)%nat -> ~ In u nodes -> a u = -1) /\ forall u, (n <= u)%nat -> a u = arr u.
Proof.
  intros H. set (x := fold_left (fun a u => upd a u (part u)) nodes (fun _ => -1)).
  assert (X : forall u, x u = if mem u nodes then part u else -1) by (intros u; apply fold_part_outside).
  assert (F : Forall int32 (map x (seq 0 n))).
  { apply Forall_forall. intros v Hv. apply in_map_iff in Hv. destruct Hv as (u & <- & _). rewrite X. destruct (mem u nodes) eqn:E; [apply mem_In in E; apply H, E|unfold int32; lia]. }
  assert (W : write_partition n nodes part = flat_map (fun v => print_int v ++ [10]) (map x (seq 0 n))).
  { unfold write_partition. fold x. cbv zeta. generalize (seq 0 n). clear. induction l as [|u l IH]; [reflexivity|]. cbn [flat_map map]. rewrite IH. reflexivity. }
  rewrite W. destruct (C35_read_partition _ _ n arr (printed_file _ F) F) as [Y _]. rewrite map_length, seq_length in Y. destruct (Y eq_refl) as (a & E & A).
  exists a. split; [exact E|].
  assert (N : forall i, (i < n)%nat -> a i = x i).
  { intros i Hi. rewrite A. destruct (Nat.ltb_spec i n); [|lia]. rewrite nth_indep with (d' := x 0%nat) by (rewrite map_length, seq_length; exact Hi). rewrite map_nth, seq_nth by exact Hi. reflexivity. }
  split; [|split].
  - intros u Hu. rewrite N by (apply H, Hu). rewrite X. rewrite (proj2 (mem_In u nodes) Hu). reflexivity.
  - intros u Hu Nu. rewrite N by exact Hu. rewrite X. destruct (mem u nodes) eqn:E9; [apply mem_In in E9; tauto|reflexivity].
  - intros u Hu. rewrite A. destruct (Nat.ltb_spec u n); [lia|reflexivity].
Qed.
Example ex_partition : write_partition 4 [0;1;3]%nat (fun u => nth u [2; 10; 7; 0] 0) = [50;10;49;48;10;45;49;10;48;10] /\
  (exists a, read_partition [50;10;49;48;10;45;49;10;48;10] 4 (fun _ => 9) = Ok a /\ map a [0;1;2;3;4]%nat = [2;10;-1;0;9]) /\
  read_partition [50;10;49;48;10] 4 (fun _ => 9) = Err /\ read_partition [50;10;49;48;10] 1 (fun _ => 9) = Err.
Proof. split; [reflexivity|]. split; [eexists; split; [reflexivity|reflexivity]|]. split; reflexivity. Qed.
(** Finding: an entry that is not an int32 literal silently ends the file, so a damaged file can be accepted: "1 0 x 3" for two
    nodes, "1 0 99999999999" for two nodes. *)
Theorem C35_refuted_garbage_accepted :
  (exists a, read_partition [49;32;48;32;120;32;51] 2 (fun _ => 9) = Ok a /\ map a [0;1;2]%nat = [1;0;9]) /\
  (exists a, read_partition ([49;32;48;32] ++ repeat 57 11) 2 (fun _ => 9) = Ok a /\ map a [0;1;2]%nat = [1;0;9]).
Proof. split; eexists; split; reflexivity. Qed.
