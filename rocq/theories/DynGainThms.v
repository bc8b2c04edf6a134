(** Proofs about the gain cache during uncontraction: one callback. *)
From Coq Require Import List Arith ZArith Lia Bool Permutation.
From Verif Require Import Base GainCache GainCacheProofs DynEdge DynEdgeSpec DynEdgeBatch DynGain DynGainSpec.
Import ListNotations.
Local Open Scope nat_scope.

Definition dpen1 (x : nat) (a : add) : Z := match a with APen y d => if y =? x then d else 0%Z | ABen _ _ _ => 0%Z end.
Definition dben1 (x b : nat) (a : add) : Z :=
  match a with ABen y c d => if (y =? x) && (c =? b) then d else 0%Z | APen _ _ => 0%Z end.
Definition dpen (l : list add) (x : nat) : Z := sumZ (dpen1 x) l.
Definition dben (l : list add) (x b : nat) : Z := sumZ (dben1 x b) l.

Lemma memb_in x l : memb x l = true <-> In x l.
Proof.
  unfold memb. rewrite existsb_exists. split.
  - intros (y & H & E). apply Nat.eqb_eq in E. subst. exact H.
  - intros H. exists x. rewrite Nat.eqb_refl. auto.
Qed.
Lemma memb_dec x l : reflect (In x l) (memb x l).
Proof. apply iff_reflect. symmetry. apply memb_in. Qed.

Lemma sum_ind (f : nat -> Z) l y : NoDup l -> sumZ (fun p => if p =? y then f p else 0%Z) l = if memb y l then f y else 0%Z.
Proof.
  induction l as [|p l IH]; intros ND; [reflexivity|]. apply NoDup_cons_iff in ND. destruct ND as [N ND].
  cbn [sumZ]. rewrite (IH ND). unfold memb. cbn [existsb]. fold (memb y l). rewrite (Nat.eqb_sym y p).
  destruct (Nat.eqb_spec p y) as [->|E]; cbn [orb].
  - destruct (memb_dec y l); [contradiction|]. lia.
  - lia.
Qed.

(** evaluation of the additions *)
Lemma dpen_app l1 l2 x : dpen (l1 ++ l2) x = (dpen l1 x + dpen l2 x)%Z. Proof. apply sumZ_app. Qed.
Lemma dben_app l1 l2 x b : dben (l1 ++ l2) x b = (dben l1 x b + dben l2 x b)%Z. Proof. apply sumZ_app. Qed.
Lemma dpen_cons a l x : dpen (a :: l) x = (dpen1 x a + dpen l x)%Z. Proof. reflexivity. Qed.
Lemma dben_cons a l x b : dben (a :: l) x b = (dben1 x b a + dben l x b)%Z. Proof. reflexivity. Qed.
Lemma dpen_nil x : dpen [] x = 0%Z. Proof. reflexivity. Qed.
Lemma dben_nil x b : dben [] x b = 0%Z. Proof. reflexivity. Qed.

Lemma dpen_flat_ben {A} (f : A -> list add) l x : (forall a, dpen (f a) x = 0%Z) -> dpen (flat_map f l) x = 0%Z.
Proof. intros H. unfold dpen. rewrite sumZ_flat_map. apply sumZ_zero. intros a _. apply H. Qed.
Lemma dpen_map_ben {A} (f : A -> add) l x : (forall a, dpen1 x (f a) = 0%Z) -> dpen (map f l) x = 0%Z.
Proof. intros H. unfold dpen. rewrite sumZ_map. apply sumZ_zero. intros a _. apply H. Qed.

Lemma dben_cset (f : nat -> list add) cs x b (g : nat -> Z) : NoDup cs ->
  (forall c, dben (f c) x b = if c =? b then g c else 0%Z) -> dben (flat_map f cs) x b = if memb b cs then g b else 0%Z.
Proof.
  intros ND H. unfold dben in *. rewrite sumZ_flat_map.
  rewrite (sumZ_ext _ (fun c => if c =? b then g c else 0%Z)) by (intros c _; apply H). apply sum_ind. exact ND.
Qed.

Lemma dpen_map_pins w l x : NoDup l -> dpen (map (fun p => APen p w) l) x = if memb x l then w else 0%Z.
Proof. intros ND. unfold dpen. rewrite sumZ_map. cbn [dpen1]. apply (sum_ind (fun _ => w)). exact ND. Qed.
Lemma dben_map_pins w l c x b : NoDup l ->
  dben (map (fun p => ABen p c w) l) x b = if memb x l && (c =? b) then w else 0%Z.
Proof.
  intros ND. unfold dben. rewrite sumZ_map. cbn [dben1]. destruct (c =? b).
  - rewrite andb_true_r. rewrite <- (sum_ind (fun _ => w) l x ND). apply sumZ_ext. intros p _. rewrite andb_true_r. reflexivity.
  - rewrite andb_false_r. apply sumZ_zero. intros p _. rewrite andb_false_r. reflexivity.
Qed.

(** ** The connectivity set *)
Lemma cset_nd k pc : NoDup (cset k pc). Proof. apply NoDup_filter. apply seq_NoDup. Qed.
Lemma cset_in k pc b : In b (cset k pc) <-> b < k /\ 0 < pc b.
Proof. unfold cset. rewrite filter_In, in_seq, Nat.ltb_lt. lia. Qed.
Lemma memb_cset k pc b : b < k -> memb b (cset k pc) = (0 <? pc b).
Proof.
  intros H. destruct (memb_dec b (cset k pc)) as [I|I]; rewrite cset_in in I; destruct (Nat.ltb_spec 0 (pc b)); try reflexivity; exfalso; tauto || lia.
Qed.

Lemma counts_total k part pins pc : (forall b, pc b = counts part pins b) -> (forall p, In p pins -> part p < k) ->
  sumZ (fun b => Z.of_nat (pc b)) (cset k pc) = Z.of_nat (length pins).
Proof.
  intros Hpc Hk. unfold cset. rewrite sumZ_filter.
  rewrite (sumZ_ext _ (fun b => sumZ (fun p => if part p =? b then 1%Z else 0%Z) pins)).
  - rewrite (sumZ_swap (fun b p => if part p =? b then 1%Z else 0%Z)).
    rewrite (sumZ_ext _ (fun _ => 1%Z)); [symmetry; apply sumZ_length|].
    intros p Hp. rewrite (sumZ_ext _ (fun b => if b =? part p then 1%Z else 0%Z)) by (intros b _; rewrite Nat.eqb_sym; reflexivity).
    rewrite (sum_ind (fun _ => 1%Z)) by apply seq_NoDup. destruct (memb_dec (part p) (seq 0 k)) as [I|I]; [reflexivity|].
    exfalso. apply I. apply in_seq. specialize (Hk p Hp). lia.
  - intros b _. rewrite Hpc. unfold counts.
    assert (E : sumZ (fun p => if part p =? b then 1%Z else 0%Z) pins = Z.of_nat (length (filter (fun p => part p =? b) pins))).
    { rewrite sumZ_length, sumZ_filter. reflexivity. }
    rewrite E. destruct (length (filter (fun p => part p =? b) pins)); reflexivity.
Qed.

(** a block that has all but one of the pins is one of exactly two blocks *)
Lemma conn_two k part pins pc b : (forall c, pc c = counts part pins c) -> (forall p, In p pins -> part p < k) ->
  b < k -> 1 < length pins -> pc b = length pins - 1 -> length (cset k pc) = 2.
Proof.
  intros Hpc Hk Hb Hl E. pose proof (counts_total k part pins pc Hpc Hk) as T.
  assert (I : In b (cset k pc)) by (apply cset_in; lia).
  apply in_split in I. destruct I as (l1 & l2 & Ec). pose proof (fun c => proj1 (cset_in k pc c)) as Hin. rewrite Ec in *.
  rewrite sumZ_app in T. cbn [sumZ] in T.
  assert (P : forall l, (forall c, In c l -> 0 < pc c) -> (Z.of_nat (length l) <= sumZ (fun c => Z.of_nat (pc c)) l)%Z).
  { induction l as [|c l IH]; intros H; [cbn; lia|]. cbn [sumZ length]. pose proof (H c (or_introl eq_refl)).
    assert (Z.of_nat (length l) <= sumZ (fun c => Z.of_nat (pc c)) l)%Z by (apply IH; intros c' H'; apply H; right; exact H'). lia. }
  assert (P1 := P l1). assert (P2 := P l2).
  specialize (P1 ltac:(intros c Hc; apply Hin; apply in_or_app; auto)).
  specialize (P2 ltac:(intros c Hc; apply Hin; apply in_or_app; right; right; auto)).
  rewrite app_length. cbn [length].
  assert (Z0 : (sumZ (fun c => Z.of_nat (pc c)) l1 + sumZ (fun c => Z.of_nat (pc c)) l2 = 1)%Z) by lia.
  destruct l1 as [|c1 [|c2 l1]], l2 as [|d1 [|d2 l2]]; cbn [length] in *; cbn [sumZ] in Z0; lia.
Qed.

(** exactly two blocks: the pins are in these two *)
Lemma conn_two_inv k part pins pc b : (forall c, pc c = counts part pins c) -> (forall p, In p pins -> part p < k) ->
  length (cset k pc) = 2 -> In b (cset k pc) ->
  exists o, find (fun c => negb (c =? b)) (cset k pc) = Some o /\ o <> b /\ o < k /\ 0 < pc o /\ pc b + pc o = length pins.
Proof.
  intros Hpc Hk L I. pose proof (counts_total k part pins pc Hpc Hk) as T. pose proof (cset_nd k pc) as ND.
  pose proof (fun c => proj1 (cset_in k pc c)) as Hin.
  destruct (cset k pc) as [|c1 [|c2 [|c3 r]]]; try discriminate. cbn [sumZ] in T.
  apply NoDup_cons_iff in ND. destruct ND as [N _]. cbn [find].
  destruct (Nat.eqb_spec c1 b) as [->|E1]; cbn [negb].
  - destruct (Nat.eqb_spec c2 b) as [->|E2]; cbn [negb].
    + exfalso. apply N. left. reflexivity.
    + exists c2. destruct (Hin c2) as [A B]; [right; left; reflexivity|]. repeat split; auto. lia.
  - destruct I as [I|[I|[]]]; [congruence|]. subst c2. exists c1. destruct (Hin c1) as [A B]; [left; reflexivity|]. repeat split; auto. lia.
Qed.

Ltac bc :=
  repeat match goal with
  | |- context [Nat.eqb ?a ?b] => destruct (Nat.eqb_spec a b)
  | |- context [Nat.ltb ?a ?b] => destruct (Nat.ltb_spec a b)
  | |- context [Z.eqb ?a ?b] => destruct (Z.eqb_spec a b)
  | |- context [Z.ltb ?a ?b] => destruct (Z.ltb_spec a b)
  | |- context [Z.leb ?a ?b] => destruct (Z.leb_spec a b)
  end.

(** ** Restoring a pin *)
Section Restore.
Variables (k : nat) (part : nat -> nat) (w : Z) (u v : nat) (pins : list nat) (pc : nat -> nat).
Hypothesis ND : NoDup (pins ++ [v]).
Hypothesis Hk : forall p, part p < k.
Hypothesis Hpc : forall b, pc b = counts part (pins ++ [v]) b.
Hypothesis Huv : part u = part v.
Hypothesis Hpos : 0 < counts part pins (part v).
Let x := mkEv true u v (pins ++ [v]) pc.
Let c0 := counts part pins.

Lemma rs_v : ~ In v pins.
Proof. intros H. apply (NoDup_remove_2 pins [] v ND). rewrite app_nil_r. exact H. Qed.
Lemma rs_nd : NoDup pins.
Proof. apply NoDup_remove_1 in ND. rewrite app_nil_r in ND. exact ND. Qed.
Lemma rs_pc b : pc b = c0 b + (if part v =? b then 1 else 0).
Proof. rewrite Hpc, counts_app. unfold c0, counts at 2. cbn. destruct (part v =? b); reflexivity. Qed.
Lemma rs_pc' b : counts part (pins ++ [v]) b = c0 b + (if part v =? b then 1 else 0).
Proof. rewrite <- Hpc. apply rs_pc. Qed.
Lemma rs_len : length (pins ++ [v]) = S (length pins).
Proof. rewrite app_length. cbn. lia. Qed.
Lemma rs_le b : c0 b <= length pins.
Proof.
  unfold c0, counts. clear. induction pins as [|p l IH]; cbn; [lia|]. destruct (part p =? b); cbn; lia.
Qed.
Lemma rs_memb y : memb y (pins ++ [v]) = memb y pins || (y =? v).
Proof. unfold memb. rewrite existsb_app. cbn. rewrite orb_false_r. reflexivity. Qed.
Lemma rs_two_blocks b : b <> part v -> c0 b + c0 (part v) <= length pins.
Proof.
  intros N. unfold c0, counts. clear - N. induction pins as [|p l IH]; cbn; [lia|].
  destruct (Nat.eqb_spec (part p) b), (Nat.eqb_spec (part p) (part v)); cbn; try lia.
Qed.

(** the only other pin of the block *)
Lemma rs_other : c0 (part v) = 1 -> exists p,
  find (fun p => negb (p =? v) && (part p =? part u)) (pins ++ [v]) = Some p /\ p <> v /\
  forall y, In y pins -> (part y = part v <-> y = p).
Proof.
  intros E. unfold c0, counts in E.
  destruct (filter (fun z => part z =? part v) pins) as [|p [|q r]] eqn:F; try discriminate.
  assert (Hp : In p pins /\ part p = part v).
  { assert (I : In p (filter (fun z => part z =? part v) pins)) by (rewrite F; left; reflexivity).
    apply filter_In in I. rewrite Nat.eqb_eq in I. exact I. }
  assert (Hu : forall y, In y pins -> (part y = part v <-> y = p)).
  { intros y Hy. split.
    - intros Ey. assert (I : In y (filter (fun z => part z =? part v) pins)) by (apply filter_In; rewrite Nat.eqb_eq; auto).
      rewrite F in I. destruct I as [I|[]]. auto.
    - intros ->. apply Hp. }
  destruct (find (fun p => negb (p =? v) && (part p =? part u)) (pins ++ [v])) as [q|] eqn:Fi.
  - apply find_some in Fi. destruct Fi as [I B]. apply andb_true_iff in B. destruct B as [B1 B2].
    destruct (Nat.eqb_spec q v) as [->|Nq]; [discriminate|]. apply Nat.eqb_eq in B2. rewrite Huv in B2.
    apply in_app_or in I. destruct I as [I|[I|[]]]; [|congruence].
    apply Hu in B2; [|exact I]. subst q. exists p. auto.
  - exfalso. pose proof (find_none _ _ Fi p) as N. cbn beta in N.
    specialize (N ltac:(apply in_or_app; left; apply Hp)). rewrite Huv, (proj2 Hp), Nat.eqb_refl, andb_true_r in N.
    destruct (Nat.eqb_spec p v) as [->|]; [|discriminate]. apply rs_v. apply Hp.
Qed.

Lemma rs_others y : memb y (filter (fun p => negb (p =? v)) (pins ++ [v])) = memb y pins.
Proof.
  pose proof rs_v as Nv.
  destruct (memb_dec y (filter (fun p => negb (p =? v)) (pins ++ [v]))) as [I|I], (memb_dec y pins) as [J|J]; try reflexivity; exfalso.
  - apply filter_In in I. destruct I as [I B]. apply in_app_or in I. destruct I as [I|[<-|[]]]; [contradiction|].
    rewrite Nat.eqb_refl in B. discriminate.
  - apply I. apply filter_In. split; [apply in_or_app; auto|]. destruct (Nat.eqb_spec y v); [congruence|reflexivity].
Qed.

Lemma rs_km1_pen y : dpen (km1_restore k part w x) y = (cpen km1_pt part w (pins ++ [v]) y - cpen km1_pt part w pins y)%Z.
Proof.
  unfold km1_restore, x. cbn [ev_u ev_v ev_pins ev_pc]. rewrite !dpen_app, dpen_cons, dpen_nil.
  rewrite (dpen_map_ben (fun b => ABen v b w)) by reflexivity. cbn [dpen1]. rewrite Huv, rs_pc, Nat.eqb_refl.
  unfold cpen, km1_pt. rewrite rs_memb, !rs_pc'. fold c0. pose proof rs_v as Nv.
  assert (Hc : 0 < c0 (part v)) by exact Hpos.
  destruct (Nat.eqb_spec (c0 (part v) + 1) 2) as [E|E].
  - destruct rs_other as (p & F & Np & Hp); [lia|]. rewrite Huv in F. rewrite F. rewrite dpen_cons, dpen_nil. cbn [dpen1].
    destruct (memb_dec y pins) as [I|I]; cbn [orb].
    + specialize (Hp y I). destruct (Nat.eqb_spec v y) as [->|Nvy]; [contradiction|].
      destruct (Nat.eqb_spec p y) as [->|Npy].
      * rewrite (proj2 Hp eq_refl), Nat.eqb_refl. replace (c0 (part v)) with 1 by lia. cbn. lia.
      * destruct (Nat.eqb_spec (part v) (part y)) as [Ep|Ep]; [exfalso; apply Npy; symmetry; apply Hp; auto|]. rewrite Nat.add_0_r. lia.
    + rewrite (Nat.eqb_sym y v). destruct (Nat.eqb_spec v y) as [<-|Nvy].
      * destruct (Nat.eqb_spec p v); [contradiction|]. rewrite Nat.eqb_refl. replace (c0 (part v)) with 1 by lia. cbn. lia.
      * destruct (Nat.eqb_spec p y) as [->|Npy]; [|lia]. exfalso. apply I.
        clear - F Nvy. apply find_some in F. destruct F as [F _]. apply in_app_or in F. destruct F as [F|[F|[]]]; [exact F|contradiction].
  - rewrite dpen_nil. destruct (memb_dec y pins) as [I|I]; cbn [orb].
    + destruct (Nat.eqb_spec v y) as [->|Nvy]; [contradiction|]. destruct (Nat.eqb_spec (part v) (part y)) as [Ep|Ep].
      * rewrite <- Ep. replace (1 <? Z.of_nat (c0 (part v) + 1))%Z with true by lia. replace (1 <? Z.of_nat (c0 (part v)))%Z with true by lia. lia.
      * rewrite Nat.add_0_r. lia.
    + rewrite (Nat.eqb_sym y v). destruct (Nat.eqb_spec v y) as [<-|Nvy]; [|lia]. rewrite Nat.eqb_refl.
      replace (1 <? Z.of_nat (c0 (part v) + 1))%Z with true by lia. cbn. lia.
Qed.

Lemma rs_km1_ben y b : b < k -> dben (km1_restore k part w x) y b = (cben km1_bt part w (pins ++ [v]) y b - cben km1_bt part w pins y b)%Z.
Proof.
  intros Hb. unfold km1_restore, x. cbn [ev_u ev_v ev_pins ev_pc]. rewrite !dben_app, dben_cons, dben_nil. cbn [dben1].
  assert (E1 : dben (if pc (part u) =? 2 then match find (fun p => negb (p =? v) && (part p =? part u)) (pins ++ [v]) with
            | Some p => [APen p w] | None => [] end else []) y b = 0%Z).
  { destruct (pc (part u) =? 2); [|reflexivity]. destruct (find _ _); reflexivity. }
  rewrite E1.
  assert (E2 : dben (map (fun b0 => ABen v b0 w) (cset k pc)) y b = if (v =? y) && (0 <? pc b) then w else 0%Z).
  { unfold dben. rewrite sumZ_map. cbn [dben1]. destruct (v =? y); cbn [andb].
    - rewrite (sum_ind (fun _ => w)) by apply cset_nd. rewrite memb_cset by exact Hb. reflexivity.
    - apply sumZ_zero. reflexivity. }
  rewrite E2. unfold cben, km1_bt. rewrite rs_memb, rs_pc, rs_pc'. fold c0. pose proof rs_v as Nv.
  assert (Hc : 0 < c0 (part v)) by exact Hpos. rewrite (Nat.eqb_sym y v).
  destruct (memb_dec y pins) as [I|I]; cbn [orb].
  - destruct (Nat.eqb_spec v y) as [->|Nvy]; [contradiction|]. cbn [andb]. destruct (Nat.eqb_spec (part v) b) as [<-|Ep].
    + replace (1 <=? Z.of_nat (c0 (part v) + 1))%Z with true by lia. replace (1 <=? Z.of_nat (c0 (part v)))%Z with true by lia. lia.
    + rewrite Nat.add_0_r. lia.
  - destruct (v =? y); cbn [andb]; [|lia]. destruct (part v =? b);
      destruct (Nat.ltb_spec 0 (c0 b + 1)), (Nat.ltb_spec 0 (c0 b + 0)); try lia;
      rewrite ?Nat.add_0_r in *; cbn [Z.b2z].
    all: try (replace (1 <=? Z.of_nat (c0 b + 1))%Z with true by lia; cbn; lia).
    all: try (replace (1 <=? Z.of_nat (c0 b))%Z with true by lia; cbn; lia).
    all: try (replace (1 <=? Z.of_nat (c0 b))%Z with false by lia; cbn; lia).
Qed.

Lemma rs_two_inv : length (cset k pc) = 2 ->
  exists o, find (fun c => negb (c =? part u)) (cset k pc) = Some o /\ o <> part v /\ o < k /\ 0 < c0 o /\ c0 (part v) + c0 o = length pins.
Proof.
  intros L. destruct (conn_two_inv k part (pins ++ [v]) pc (part u) Hpc ltac:(intros; apply Hk) L) as (o & F & N & B & P & S).
  - apply cset_in. split; [apply Hk|]. rewrite Huv, rs_pc, Nat.eqb_refl. lia.
  - exists o. rewrite Huv in N. rewrite Huv, rs_len, !rs_pc, Nat.eqb_refl in S.
    rewrite rs_pc in P. destruct (Nat.eqb_spec (part v) o); [congruence|]. repeat split; auto; lia.
Qed.
Lemma rs_two b : b < k -> 0 < length pins -> pc b = length pins -> length (cset k pc) = 2.
Proof.
  intros Hb L E. apply (conn_two k part (pins ++ [v]) pc b Hpc ltac:(intros; apply Hk) Hb); rewrite rs_len; lia.
Qed.
Lemma rs_cset : cset k pc = cset k c0.
Proof.
  unfold cset. apply filter_ext. intros b. rewrite rs_pc. assert (Hc : 0 < c0 (part v)) by exact Hpos.
  destruct (Nat.eqb_spec (part v) b) as [<-|N]; bc; try reflexivity; lia.
Qed.
Lemma rs_pos : 0 < length pins. Proof. pose proof (rs_le (part v)). unfold c0 in *. lia. Qed.

Lemma rs_cut_pen y : dpen (cut_restore k part w x) y = (cpen cut_pt part w (pins ++ [v]) y - cpen cut_pt part w pins y)%Z.
Proof.
  unfold cut_restore, x. cbn [ev_u ev_v ev_pins ev_pc].
  unfold cpen, cut_pt. rewrite rs_memb, !rs_pc', rs_len. fold c0. pose proof rs_v as Nv. pose proof rs_pos as Lp.
  assert (Hc : 0 < c0 (part v)) by exact Hpos. pose proof (rs_le (part v)) as Le. pose proof (rs_two_blocks (part y)) as TB.
  destruct (Nat.eqb_spec (length (cset k pc)) 2) as [L|L].
  - rewrite dpen_app. rewrite dpen_flat_ben by (intros c; destruct (pc c =? _); reflexivity).
    assert (E0 : dpen (if pc (part u) =? 2 then match find (fun b => negb (b =? part u)) (cset k pc) with
        | Some ob => map (fun p => ABen p ob (- w)%Z) (filter (fun p => negb (p =? v)) (pins ++ [v])) | None => [] end else []) y = 0%Z).
    { destruct (pc (part u) =? 2); [|reflexivity]. destruct (find _ _); [|reflexivity]. apply dpen_map_ben. reflexivity. }
    rewrite E0. destruct (rs_two_inv L) as (o & F & No & Bo & Po & So).
    destruct (memb_dec y pins) as [I|I]; cbn [orb].
    + destruct (Nat.eqb_spec (part v) (part y)) as [Ep|Ep]; [rewrite <- Ep|]; bc; cbn; try lia.
    + destruct (Nat.eqb_spec y v) as [->|Nvy]; [|lia]. rewrite Nat.eqb_refl. bc; cbn; lia.
  - rewrite rs_pc, Huv, Nat.eqb_refl.
    destruct (Nat.eqb_spec (c0 (part v) + 1) (S (length pins))) as [E|E].
    + rewrite dpen_cons. cbn [dpen1].
      assert (E2 : dpen (if S (length pins) =? 2 then map (fun p => APen p w) (filter (fun p => negb (p =? v)) (pins ++ [v])) else []) y
                 = if (S (length pins) =? 2) && memb y pins then w else 0%Z).
      { destruct (S (length pins) =? 2); [|reflexivity]. rewrite dpen_map_pins by (apply NoDup_filter; exact ND). rewrite rs_others. reflexivity. }
      rewrite E2. destruct (memb_dec y pins) as [I|I]; cbn [orb].
      * destruct (Nat.eqb_spec v y) as [->|Nvy]; [contradiction|]. destruct (Nat.eqb_spec (part v) (part y)) as [Ep|Ep].
        -- rewrite <- Ep. bc; cbn; lia.
        -- exfalso. specialize (TB ltac:(congruence)). assert (0 < c0 (part y)); [|lia].
           apply counts_pos. exists y. auto.
      * rewrite andb_false_r, (Nat.eqb_sym y v). destruct (Nat.eqb_spec v y) as [->|Nvy]; [|lia]. rewrite Nat.eqb_refl. bc; cbn; lia.
    + rewrite dpen_nil. destruct (memb_dec y pins) as [I|I]; cbn [orb].
      * destruct (Nat.eqb_spec (part v) (part y)) as [Ep|Ep]; [rewrite <- Ep|]; bc; cbn; try lia.
      * destruct (Nat.eqb_spec y v) as [->|Nvy]; [|lia]. rewrite Nat.eqb_refl. bc; cbn; lia.
Qed.

Lemma rs_cut_ben y b : b < k -> dben (cut_restore k part w x) y b = (cben cut_bt part w (pins ++ [v]) y b - cben cut_bt part w pins y b)%Z.
Proof.
  intros Hb. unfold cut_restore, x. cbn [ev_u ev_v ev_pins ev_pc].
  unfold cben, cut_bt. rewrite rs_memb, !rs_pc', rs_len. fold c0. pose proof rs_v as Nv. pose proof rs_pos as Lp.
  assert (Hc : 0 < c0 (part v)) by exact Hpos. pose proof (rs_le (part v)) as Le. pose proof (rs_two_blocks b) as TB.
  destruct (Nat.eqb_spec (length (cset k pc)) 2) as [L|L].
  - destruct (rs_two_inv L) as (o & F & No & Bo & Po & So). rewrite F.
    rewrite dben_app. rewrite (dben_cset _ _ y b (fun c => if (v =? y) && (pc c =? S (length pins) - 1) then w else 0%Z)) by
      (try apply cset_nd; intros c; destruct (pc c =? S (length pins) - 1); rewrite ?dben_cons, ?dben_nil; cbn [dben1];
       rewrite ?andb_true_r, ?andb_false_r; destruct (v =? y), (c =? b); cbn; lia).
    rewrite memb_cset by exact Hb.
    assert (E0 : dben (if pc (part u) =? 2 then map (fun p => ABen p o (- w)%Z) (filter (fun p => negb (p =? v)) (pins ++ [v])) else []) y b
       = if (pc (part u) =? 2) && (memb y pins && (o =? b)) then (- w)%Z else 0%Z).
    { destruct (pc (part u) =? 2); [|reflexivity]. rewrite dben_map_pins by (apply NoDup_filter; exact ND). rewrite rs_others. reflexivity. }
    rewrite E0, Huv, !rs_pc, Nat.eqb_refl.
    pose proof (rs_two_blocks o No) as TBo.
    destruct (memb_dec y pins) as [I|I]; cbn [orb].
    + destruct (Nat.eqb_spec v y) as [->|Nvy]; [contradiction|]. cbn [andb].
      destruct (Nat.eqb_spec o b) as [->|Nob].
      * destruct (Nat.eqb_spec (part v) b); [congruence|]. bc; cbn; try lia.
      * destruct (Nat.eqb_spec (part v) b) as [<-|Nb].
        -- bc; cbn; try lia.
        -- assert (Ez : c0 b = 0).
           { destruct (Nat.eq_dec (c0 b) 0) as [Z0|Z0]; [exact Z0|exfalso].
             assert (I3 : In b (cset k pc)) by (apply cset_in; rewrite rs_pc; split; [exact Hb|lia]).
             assert (I1 : In o (cset k pc)) by (apply cset_in; rewrite rs_pc; split; [exact Bo|lia]).
             assert (I2 : In (part v) (cset k pc)) by (apply cset_in; rewrite rs_pc; split; [apply Hk|lia]).
             assert (X : incl [b; o; part v] (cset k pc)) by (intros z [<-|[<-|[<-|[]]]]; assumption).
             apply NoDup_incl_length in X; [cbn in X; lia|].
             constructor; [intros [X1|[X1|[]]]; congruence|]. constructor; [intros [X1|[]]; congruence|]. constructor; [intros []|constructor]. }
           rewrite Ez. bc; cbn; try lia.
    + rewrite andb_false_r, (Nat.eqb_sym y v). cbn [andb]. destruct (Nat.eqb_spec v y) as [->|Nvy]; cbn [andb]; [|bc; lia].
      destruct (part y =? b); bc; cbn; try lia.
  - assert (E0 : dben (if pc (part u) =? S (length pins) then APen v w :: (if S (length pins) =? 2 then map (fun p => APen p w)
         (filter (fun p => negb (p =? v)) (pins ++ [v])) else []) else []) y b = 0%Z).
    { destruct (pc (part u) =? S (length pins)); [|reflexivity]. rewrite dben_cons. cbn [dben1].
      destruct (S (length pins) =? 2); [|reflexivity]. unfold dben. rewrite sumZ_map. cbn. apply sumZ_zero. reflexivity. }
    rewrite E0.
    assert (Nb : pc b <> length pins) by (intros X; apply L; apply (rs_two b Hb Lp X)). rewrite rs_pc in Nb.
    destruct (Nat.eqb_spec (part v) b) as [<-|Nbv].
    + destruct (memb_dec y pins) as [I|I]; cbn [orb]; [bc; cbn; lia|]. destruct (y =? v); bc; cbn; lia.
    + assert (Nb2 : c0 b <> length pins - 1 \/ length pins <= 1).
      { destruct (Nat.leb_spec (length pins) 1) as [Q|Q]; [right; exact Q|left]. intros X. specialize (TB ltac:(congruence)).
        apply L. rewrite rs_cset. apply (conn_two k part pins c0 b); auto. }
      destruct (memb_dec y pins) as [I|I]; cbn [orb]; [bc; cbn; lia|]. destruct (y =? v); bc; cbn; lia.
Qed.

Lemma rs_soed_pen y : dpen (soed_restore k part w x) y = (cpen soed_pt part w (pins ++ [v]) y - cpen soed_pt part w pins y)%Z.
Proof.
  unfold soed_restore, x. cbn [ev_u ev_v ev_pins ev_pc]. rewrite rs_len.
  rewrite !dpen_app, dpen_cons, dpen_nil.
  rewrite dpen_flat_ben by (intros c; destruct (pc c =? _); reflexivity). cbn [dpen1].
  unfold cpen, soed_pt. rewrite rs_memb, !rs_pc', rs_len. fold c0. pose proof rs_v as Nv. pose proof rs_pos as Lp.
  assert (Hc : 0 < c0 (part v)) by exact Hpos. pose proof (rs_le (part v)) as Le. pose proof (rs_two_blocks (part y)) as TB.
  assert (Ey : forall y, In y pins -> 0 < c0 (part y)) by (intros z Hz; apply counts_pos; exists z; auto).
  rewrite Huv, rs_pc, Nat.eqb_refl. rewrite <- Huv.
  destruct (Nat.eqb_spec (c0 (part u) + 1) 2) as [E|E].
  - rewrite Huv in *. destruct rs_other as (p & F & Np & Hp); [lia|]. rewrite Huv in F. rewrite F, dpen_app.
    assert (E0 : dpen (if length (cset k pc) =? 2 then match find (fun b => negb (b =? part v)) (cset k pc) with
        | Some ob => map (fun p => ABen p ob (- w)%Z) (filter (fun p => negb (p =? v)) (pins ++ [v])) | None => [] end else []) y = 0%Z).
    { destruct (length (cset k pc) =? 2); [|reflexivity].
      match goal with |- context [find ?f (cset k pc)] => destruct (find f (cset k pc)) end; [|reflexivity]. apply dpen_map_ben. reflexivity. }
    rewrite E0. rewrite dpen_cons. cbn [dpen1].
    assert (E1 : dpen (if S (length pins) =? 2 then [ABen p (part v) w] else []) y = 0%Z) by (destruct (S (length pins) =? 2); reflexivity).
    rewrite E1.
    assert (Ip : In p pins) by (apply find_some in F; destruct F as [F _]; apply in_app_or in F; destruct F as [F|[F|[]]]; [exact F|congruence]).
    assert (E2 : dpen (if c0 (part v) + 1 =? S (length pins) then APen v w :: (if S (length pins) =? 2 then [APen p w] else []) else []) y
      = (if c0 (part v) + 1 =? S (length pins) then Z.add (if v =? y then w else 0%Z) (if S (length pins) =? 2 then if p =? y then w else 0%Z else 0%Z) else 0%Z)).
    { destruct (c0 (part v) + 1 =? S (length pins)); [|reflexivity]. rewrite dpen_cons. cbn [dpen1]. f_equal.
      destruct (S (length pins) =? 2); [|reflexivity]. rewrite dpen_cons, dpen_nil. cbn [dpen1]. lia. }
    rewrite E2.
    destruct (memb_dec y pins) as [I|I]; cbn [orb].
    + specialize (Hp y I). specialize (Ey y I). destruct (Nat.eqb_spec v y) as [->|Nvy]; [contradiction|].
      destruct (Nat.eqb_spec p y) as [->|Npy].
      * rewrite (proj2 Hp eq_refl), Nat.eqb_refl. bc; cbn; lia.
      * destruct (Nat.eqb_spec (part v) (part y)) as [Ep|Ep]; [exfalso; apply Npy; symmetry; apply Hp; auto|].
        specialize (TB ltac:(congruence)). rewrite Nat.add_0_r. bc; cbn; lia.
    + rewrite (Nat.eqb_sym y v). destruct (Nat.eqb_spec v y) as [<-|Nvy].
      * destruct (Nat.eqb_spec p v); [contradiction|]. rewrite Nat.eqb_refl. bc; cbn; lia.
      * destruct (Nat.eqb_spec p y) as [->|Npy]; [contradiction|]. bc; cbn; lia.
  - rewrite Huv in *. rewrite dpen_nil.
    assert (E2 : dpen (if c0 (part v) + 1 =? S (length pins) then APen v w :: (if S (length pins) =? 2 then [] else []) else []) y
      = (if c0 (part v) + 1 =? S (length pins) then (if v =? y then w else 0%Z) else 0%Z)).
    { destruct (c0 (part v) + 1 =? S (length pins)); [|reflexivity]. rewrite dpen_cons. cbn [dpen1].
      destruct (S (length pins) =? 2); rewrite dpen_nil; lia. }
    rewrite E2. destruct (memb_dec y pins) as [I|I]; cbn [orb].
    + specialize (Ey y I). destruct (Nat.eqb_spec v y) as [->|Nvy]; [contradiction|]. destruct (Nat.eqb_spec (part v) (part y)) as [Ep|Ep].
      * rewrite <- Ep. bc; cbn; lia.
      * specialize (TB ltac:(congruence)). rewrite Nat.add_0_r. bc; cbn; lia.
    + rewrite (Nat.eqb_sym y v). destruct (Nat.eqb_spec v y) as [<-|Nvy].
      * rewrite Nat.eqb_refl. bc; cbn; lia.
      * bc; cbn; lia.
Qed.

Lemma rs_third b o : length (cset k pc) = 2 -> o <> part v -> o < k -> 0 < c0 o -> b < k -> b <> o -> b <> part v -> c0 b = 0.
Proof.
  intros L No Bo Po Hb Nob Nb. assert (Hc : 0 < c0 (part v)) by exact Hpos.
  destruct (Nat.eq_dec (c0 b) 0) as [Z0|Z0]; [exact Z0|exfalso].
  assert (I3 : In b (cset k pc)) by (apply cset_in; rewrite rs_pc; split; [exact Hb|lia]).
  assert (I1 : In o (cset k pc)) by (apply cset_in; rewrite rs_pc; split; [exact Bo|lia]).
  assert (I2 : In (part v) (cset k pc)) by (apply cset_in; rewrite rs_pc; split; [apply Hk|lia]).
  assert (X : incl [b; o; part v] (cset k pc)) by (intros z [<-|[<-|[<-|[]]]]; assumption).
  apply NoDup_incl_length in X; [cbn in X; lia|].
  constructor; [intros [X1|[X1|[]]]; congruence|]. constructor; [intros [X1|[]]; congruence|]. constructor; [intros []|constructor].
Qed.

Lemma rs_not_two b : length (cset k pc) <> 2 -> b < k -> pc b <> length pins /\ (1 < length pins -> c0 b <> length pins - 1).
Proof.
  intros L Hb. split.
  - intros X. apply L. exact (rs_two b Hb rs_pos X).
  - intros L1 X. apply L. rewrite rs_cset. apply (conn_two k part pins c0 b); auto.
Qed.

Lemma rs_soed_ben y b : b < k -> dben (soed_restore k part w x) y b = (cben soed_bt part w (pins ++ [v]) y b - cben soed_bt part w pins y b)%Z.
Proof.
  intros Hb. unfold soed_restore, x. cbn [ev_u ev_v ev_pins ev_pc]. rewrite rs_len.
  rewrite !dben_app, dben_cons, dben_nil. cbn [dben1].
  rewrite (dben_cset _ _ y b (fun c => if v =? y then Z.add w (if pc c =? S (length pins) - 1 then w else 0%Z) else 0%Z)) by
      (try apply cset_nd; intros c; destruct (pc c =? S (length pins) - 1); rewrite ?dben_cons, ?dben_nil; cbn [dben1];
       destruct (v =? y), (c =? b); cbn; lia).
  rewrite memb_cset by exact Hb.
  assert (Elast : forall q, dben (if pc (part u) =? S (length pins) then APen v w :: (if S (length pins) =? 2 then
      match q with Some p => [APen p w] | None => [] end else []) else []) y b = 0%Z).
  { intros q. destruct (pc (part u) =? S (length pins)); [|reflexivity]. rewrite dben_cons. cbn [dben1].
    destruct (S (length pins) =? 2); [|reflexivity]. destruct q; reflexivity. }
  rewrite Elast.
  unfold cben, soed_bt. rewrite rs_memb, !rs_pc', rs_len. fold c0. pose proof rs_v as Nv. pose proof rs_pos as Lp.
  assert (Hc : 0 < c0 (part v)) by exact Hpos. pose proof (rs_le (part v)) as Le. pose proof (rs_two_blocks b) as TB.
  rewrite !Huv, !rs_pc, Nat.eqb_refl.
  destruct (Nat.eqb_spec (c0 (part v) + 1) 2) as [E|E].
  - destruct rs_other as (p & F & Np & Hp); [lia|]. rewrite Huv in F. rewrite F, dben_app, dben_cons. cbn [dben1].
    assert (Ip : In p pins) by (apply find_some in F; destruct F as [F _]; apply in_app_or in F; destruct F as [F|[F|[]]]; [exact F|congruence]).
    assert (E1 : dben (if S (length pins) =? 2 then [ABen p (part v) w] else []) y b
       = if (S (length pins) =? 2) && ((p =? y) && (part v =? b)) then w else 0%Z).
    { destruct (S (length pins) =? 2); [|reflexivity]. rewrite dben_cons, dben_nil. cbn [dben1 andb]. lia. }
    rewrite E1.
    assert (Hsingle : length pins = 1 -> forall z, In z pins -> z = p).
    { intros L1 z Hz. destruct pins as [|q [|q2 r]]; try discriminate. destruct Hz as [<-|[]], Ip as [<-|[]]. reflexivity. }
    destruct (Nat.eqb_spec (length (cset k pc)) 2) as [L|L].
    + destruct (rs_two_inv L) as (o & Fo & No & Bo & Po & So). rewrite Huv in Fo. rewrite Fo.
      rewrite dben_map_pins by (apply NoDup_filter; exact ND). rewrite rs_others.
      pose proof (rs_two_blocks o No) as TBo.
      destruct (memb_dec y pins) as [I|I]; cbn [orb andb].
      * destruct (Nat.eqb_spec v y) as [->|Nvy]; [contradiction|]. cbn [andb].
        destruct (Nat.eqb_spec o b) as [->|Nob].
        -- destruct (Nat.eqb_spec (part v) b); [congruence|]. rewrite andb_false_r. bc; cbn; lia.
        -- destruct (Nat.eqb_spec (part v) b) as [<-|Nb].
           ++ destruct (p =? y); bc; cbn; lia.
           ++ rewrite (rs_third b o L No Bo Po Hb) by congruence. rewrite andb_false_r. bc; cbn; lia.
      * rewrite (Nat.eqb_sym y v). destruct (Nat.eqb_spec v y) as [<-|Nvy]; cbn [andb].
        -- destruct (Nat.eqb_spec p v) as [->|]; [contradiction|]. cbn [andb]. destruct (part v =? b); bc; cbn; lia.
        -- destruct (Nat.eqb_spec p y) as [->|]; [contradiction|]. cbn [andb]. bc; cbn; lia.
    + rewrite dben_nil. destruct (rs_not_two b L Hb) as [A B]. rewrite rs_pc in A.
      destruct (memb_dec y pins) as [I|I]; cbn [orb andb].
      * destruct (Nat.eqb_spec v y) as [->|Nvy]; [contradiction|]. cbn [andb].
        destruct (Nat.eqb_spec (length pins) 1) as [L1|L1].
        -- rewrite (Hsingle L1 y I), Nat.eqb_refl, L1. cbn [Nat.eqb andb].
           destruct (Nat.eqb_spec (part v) b) as [<-|Nb].
           ++ replace (c0 (part v)) with 1 by lia. bc; cbn; lia.
           ++ specialize (TB ltac:(congruence)). replace (c0 b) with 0 by lia. bc; cbn; lia.
        -- destruct (part v =? b) eqn:Eb; [apply Nat.eqb_eq in Eb; subst b|]; rewrite ?andb_true_r, ?andb_false_r; destruct (p =? y); bc; cbn; try lia.
      * rewrite (Nat.eqb_sym y v). destruct (Nat.eqb_spec v y) as [<-|Nvy]; cbn [andb].
        -- destruct (Nat.eqb_spec p v) as [->|]; [contradiction|]. cbn [andb]. rewrite andb_false_r. destruct (part v =? b); bc; cbn; lia.
        -- destruct (Nat.eqb_spec p y) as [->|]; [contradiction|]. cbn [andb]. bc; cbn; lia.
  - rewrite dben_nil.
    assert (Q : c0 b = length pins - 1 -> part v <> b -> False) by (intros X1 X2; specialize (TB ltac:(congruence)); lia).
    destruct (memb_dec y pins) as [I|I]; cbn [orb].
    + destruct (Nat.eqb_spec v y) as [->|Nvy]; [contradiction|]. cbn [andb].
      destruct (Nat.eqb_spec (part v) b) as [<-|Nb].
      * bc; cbn; lia.
      * specialize (TB ltac:(congruence)). rewrite Nat.add_0_r. bc; cbn; lia.
    + rewrite (Nat.eqb_sym y v). destruct (Nat.eqb_spec v y) as [<-|Nvy]; cbn [andb].
      * destruct (Nat.eqb_spec (part v) b) as [<-|Nb]; [|specialize (TB ltac:(congruence))]; bc; cbn; lia.
      * bc; cbn; lia.
Qed.
End Restore.

Lemma counts_le part l b : counts part l b <= length l.
Proof. unfold counts. induction l as [|p l IH]; [cbn; lia|]. cbn [filter length]. destruct (part p =? b); cbn [length]; lia. Qed.

(** ** Replacing a pin *)
Section Replace.
Variables (k : nat) (part : nat -> nat) (w : Z) (u v : nat) (l1 l2 : list nat) (pc : nat -> nat).
Hypothesis ND : NoDup (l1 ++ u :: l2).
Hypothesis Nv : ~ In v (l1 ++ u :: l2).
Hypothesis Hk : forall p, part p < k.
Hypothesis Hpc : forall b, pc b = counts part (l1 ++ v :: l2) b.
Hypothesis Huv : part u = part v.
Let pins := l1 ++ v :: l2.
Let x := mkEv false u v pins pc.

Lemma rp_counts b : counts part (l1 ++ u :: l2) b = pc b.
Proof. rewrite Hpc, !counts_app. f_equal. unfold counts. cbn. rewrite Huv. destruct (part v =? b); reflexivity. Qed.
Lemma rp_len : length (l1 ++ u :: l2) = length pins.
Proof. unfold pins. rewrite !app_length. reflexivity. Qed.
Lemma rp_memb z y : memb y (l1 ++ z :: l2) = memb y (l1 ++ l2) || (y =? z).
Proof. unfold memb. rewrite !existsb_app. cbn. destruct (existsb (Nat.eqb y) l1), (y =? z), (existsb (Nat.eqb y) l2); reflexivity. Qed.
Lemma rp_u : memb u (l1 ++ l2) = false.
Proof. destruct (memb_dec u (l1 ++ l2)) as [I|I]; [|reflexivity]. exfalso. exact (NoDup_remove_2 _ _ _ ND I). Qed.
Lemma rp_v : memb v (l1 ++ l2) = false.
Proof. destruct (memb_dec v (l1 ++ l2)) as [I|I]; [|reflexivity]. exfalso. apply Nv. apply in_app_or in I. apply in_or_app. destruct I; cbn; auto. Qed.
Lemma rp_ne : u <> v. Proof. intros E. apply Nv. apply in_or_app. right. left. exact E. Qed.
Lemma rp_pos : 0 < pc (part u).
Proof. rewrite <- rp_counts. apply counts_pos. exists u. split; [apply in_or_app; right; left; reflexivity|reflexivity]. Qed.
Lemma rp_le b : pc b <= length pins.
Proof. rewrite Hpc. unfold pins. apply counts_le. Qed.

Lemma rp_spec_pen pt y : Z.sub (cpen pt part w pins y) (cpen pt part w (l1 ++ u :: l2) y)
  = Z.sub (if v =? y then Z.mul w (pt (Z.of_nat (length pins)) (Z.of_nat (pc (part u)))) else 0%Z)
    (if u =? y then Z.mul w (pt (Z.of_nat (length pins)) (Z.of_nat (pc (part u)))) else 0%Z).
Proof.
  unfold cpen. rewrite rp_counts, rp_len. replace (counts part pins (part y)) with (pc (part y)) by (symmetry; unfold pins; rewrite <- Hpc; reflexivity).
  unfold pins at 1. rewrite !rp_memb, (Nat.eqb_sym y v), (Nat.eqb_sym y u). pose proof rp_ne as Ne.
  destruct (Nat.eqb_spec v y) as [<-|E1].
  - rewrite rp_v. destruct (Nat.eqb_spec u v); [contradiction|]. cbn [orb]. rewrite Huv. lia.
  - destruct (Nat.eqb_spec u y) as [<-|E2]; [rewrite rp_u; cbn [orb]; lia|]. rewrite !orb_false_r. lia.
Qed.
Lemma rp_spec_ben bt y b : Z.sub (cben bt part w pins y b) (cben bt part w (l1 ++ u :: l2) y b)
  = Z.sub (if v =? y then Z.mul w (bt (Z.of_nat (length pins)) (Z.of_nat (pc b))) else 0%Z)
    (if u =? y then Z.mul w (bt (Z.of_nat (length pins)) (Z.of_nat (pc b))) else 0%Z).
Proof.
  unfold cben. rewrite rp_counts, rp_len. replace (counts part pins b) with (pc b) by (unfold pins; apply Hpc).
  unfold pins at 1. rewrite !rp_memb, (Nat.eqb_sym y v), (Nat.eqb_sym y u). pose proof rp_ne as Ne.
  destruct (Nat.eqb_spec v y) as [<-|E1].
  - rewrite rp_v. destruct (Nat.eqb_spec u v); [contradiction|]. cbn [orb]. lia.
  - destruct (Nat.eqb_spec u y) as [<-|E2]; [rewrite rp_u; cbn [orb]; lia|]. rewrite !orb_false_r. lia.
Qed.

Lemma rp_km1_pen y : dpen (km1_replace k part w x) y = (cpen km1_pt part w pins y - cpen km1_pt part w (l1 ++ u :: l2) y)%Z.
Proof.
  rewrite rp_spec_pen. unfold km1_replace, x. cbn [ev_u ev_v ev_pins ev_pc]. rewrite !dpen_app.
  rewrite dpen_flat_ben by reflexivity. unfold km1_pt. pose proof rp_pos as P. pose proof rp_ne as Ne.
  destruct (Nat.eqb_spec (pc (part u)) 1) as [E|E]; rewrite ?dpen_cons, ?dpen_nil; cbn [dpen1]; bc; cbn; lia.
Qed.
Lemma rp_km1_ben y b : b < k -> dben (km1_replace k part w x) y b = (cben km1_bt part w pins y b - cben km1_bt part w (l1 ++ u :: l2) y b)%Z.
Proof.
  intros Hb. rewrite rp_spec_ben. unfold km1_replace, x. cbn [ev_u ev_v ev_pins ev_pc]. rewrite !dben_app.
  rewrite (dben_cset _ _ y b (fun _ => Z.sub (if v =? y then w else 0%Z) (if u =? y then w else 0%Z))) by
    (try apply cset_nd; intros c; rewrite ?dben_cons, ?dben_nil; cbn [dben1]; destruct (v =? y), (u =? y), (c =? b); cbn; lia).
  rewrite memb_cset by exact Hb. unfold km1_bt.
  assert (E0 : dben (if pc (part u) =? 1 then [APen u w; APen v (- w)%Z] else []) y b = 0%Z) by (destruct (pc (part u) =? 1); reflexivity).
  rewrite E0. rewrite !dben_cons, dben_nil. cbn [dben1]. destruct (v =? y), (u =? y); bc; cbn; lia.
Qed.

Lemma rp_cut_pen y : dpen (cut_replace k part w x) y = (cpen cut_pt part w pins y - cpen cut_pt part w (l1 ++ u :: l2) y)%Z.
Proof.
  rewrite rp_spec_pen. unfold cut_replace, x. cbn [ev_u ev_v ev_pins ev_pc]. unfold cut_pt.
  destruct (Nat.ltb_spec 1 (length pins)) as [L|L].
  - rewrite dpen_app.
    assert (E0 : dpen (if length (cset k pc) =? 2 then flat_map (fun b => if pc b =? length pins - 1 then [ABen u b (- w)%Z; ABen v b w] else []) (cset k pc) else []) y = 0%Z).
    { destruct (length (cset k pc) =? 2); [|reflexivity]. apply dpen_flat_ben. intros c. destruct (pc c =? length pins - 1); reflexivity. }
    rewrite E0. destruct (Nat.eqb_spec (pc (part u)) (length pins)) as [E|E]; rewrite ?dpen_cons, ?dpen_nil; cbn [dpen1]; bc; cbn; lia.
  - rewrite dpen_nil. bc; cbn; lia.
Qed.
Lemma rp_cut_ben y b : b < k -> dben (cut_replace k part w x) y b = (cben cut_bt part w pins y b - cben cut_bt part w (l1 ++ u :: l2) y b)%Z.
Proof.
  intros Hb. rewrite rp_spec_ben. unfold cut_replace, x. cbn [ev_u ev_v ev_pins ev_pc]. unfold cut_bt.
  destruct (Nat.ltb_spec 1 (length pins)) as [L|L].
  - rewrite dben_app.
    assert (E0 : dben (if pc (part u) =? length pins then [APen u (- w)%Z; APen v w] else []) y b = 0%Z) by (destruct (pc (part u) =? length pins); reflexivity).
    rewrite E0. destruct (Nat.eqb_spec (length (cset k pc)) 2) as [C|C].
    + rewrite (dben_cset _ _ y b (fun c => if pc c =? length pins - 1 then Z.sub (if v =? y then w else 0%Z) (if u =? y then w else 0%Z) else 0%Z)) by
        (try apply cset_nd; intros c; destruct (pc c =? length pins - 1); rewrite ?dben_cons, ?dben_nil; cbn [dben1]; destruct (v =? y), (u =? y), (c =? b); cbn; lia).
      rewrite memb_cset by exact Hb. destruct (v =? y), (u =? y); bc; cbn; lia.
    + rewrite dben_nil. assert (N : pc b <> length pins - 1) by (intros X; apply C; apply (conn_two k part pins pc b Hpc); auto).
      destruct (v =? y), (u =? y); bc; cbn; lia.
  - rewrite dben_nil. destruct (v =? y), (u =? y); bc; cbn; lia.
Qed.

Lemma rp_soed_pen y : dpen (soed_replace k part w x) y = (cpen soed_pt part w pins y - cpen soed_pt part w (l1 ++ u :: l2) y)%Z.
Proof.
  rewrite rp_spec_pen. unfold soed_replace, x. cbn [ev_u ev_v ev_pins ev_pc]. unfold soed_pt.
  destruct (Nat.ltb_spec 1 (length pins)) as [L|L].
  - rewrite !dpen_app. rewrite dpen_flat_ben by (intros c; destruct (pc c =? length pins - 1); reflexivity).
    destruct (Nat.ltb_spec 1 (pc (part u))), (Nat.eqb_spec (pc (part u)) (length pins)) as [E|E]; rewrite ?dpen_cons, ?dpen_nil; cbn [dpen1]; destruct (v =? y), (u =? y); bc; cbn; lia.
  - rewrite dpen_nil. destruct (v =? y), (u =? y); bc; cbn; lia.
Qed.
Lemma rp_soed_ben y b : b < k -> dben (soed_replace k part w x) y b = (cben soed_bt part w pins y b - cben soed_bt part w (l1 ++ u :: l2) y b)%Z.
Proof.
  intros Hb. rewrite rp_spec_ben. unfold soed_replace, x. cbn [ev_u ev_v ev_pins ev_pc]. unfold soed_bt.
  destruct (Nat.ltb_spec 1 (length pins)) as [L|L].
  - rewrite !dben_app.
    assert (E0 : dben (if 1 <? pc (part u) then [APen u (- w)%Z; APen v w] else []) y b = 0%Z) by (destruct (1 <? pc (part u)); reflexivity).
    assert (E1 : dben (if pc (part u) =? length pins then [APen u (- w)%Z; APen v w] else []) y b = 0%Z) by (destruct (pc (part u) =? length pins); reflexivity).
    rewrite E0, E1.
    rewrite (dben_cset _ _ y b (fun c => Z.mul (Z.add 1 (if pc c =? length pins - 1 then 1 else 0)) (Z.sub (if v =? y then w else 0%Z) (if u =? y then w else 0%Z)))) by
      (try apply cset_nd; intros c; destruct (pc c =? length pins - 1); cbn [app]; rewrite ?dben_cons, ?dben_nil; cbn [dben1]; destruct (v =? y), (u =? y), (c =? b); cbn [andb]; lia).
    rewrite memb_cset by exact Hb. destruct (v =? y), (u =? y); bc; cbn [Z.b2z]; lia.
  - rewrite dben_nil. destruct (v =? y), (u =? y); bc; cbn; lia.
Qed.
End Replace.

(** ** All three *)
Definition up_exact (U : upolicy) (pt bt : Z -> Z -> Z) : Prop := forall k part w u v,
  (forall p, part p < k) -> part u = part v ->
  (forall pins pc, NoDup (pins ++ [v]) -> (forall b, pc b = counts part (pins ++ [v]) b) -> 0 < counts part pins (part v) ->
     let x := mkEv true u v (pins ++ [v]) pc in
     (forall y, dpen (up_restore U k part w x) y = (cpen pt part w (pins ++ [v]) y - cpen pt part w pins y)%Z) /\
     (forall y b, b < k -> dben (up_restore U k part w x) y b = (cben bt part w (pins ++ [v]) y b - cben bt part w pins y b)%Z)) /\
  (forall l1 l2 pc, NoDup (l1 ++ u :: l2) -> ~ In v (l1 ++ u :: l2) -> (forall b, pc b = counts part (l1 ++ v :: l2) b) ->
     let x := mkEv false u v (l1 ++ v :: l2) pc in
     (forall y, dpen (up_replace U k part w x) y = (cpen pt part w (l1 ++ v :: l2) y - cpen pt part w (l1 ++ u :: l2) y)%Z) /\
     (forall y b, b < k -> dben (up_replace U k part w x) y b = (cben bt part w (l1 ++ v :: l2) y b - cben bt part w (l1 ++ u :: l2) y b)%Z)).
Lemma km1_up_exact : up_exact km1_up km1_pt km1_bt.
Proof.
  intros k part w u v Hk Huv. split.
  - intros pins pc ND Hpc Hpos. cbv zeta. split; [intros y; apply rs_km1_pen; auto|intros y b Hb; apply rs_km1_ben; auto].
  - intros l1 l2 pc ND Nv Hpc. cbv zeta. split; [intros y; apply rp_km1_pen; auto|intros y b Hb; apply rp_km1_ben; auto].
Qed.
Lemma cut_up_exact : up_exact cut_up cut_pt cut_bt.
Proof.
  intros k part w u v Hk Huv. split.
  - intros pins pc ND Hpc Hpos. cbv zeta. split; [intros y; apply rs_cut_pen; auto|intros y b Hb; apply rs_cut_ben; auto].
  - intros l1 l2 pc ND Nv Hpc. cbv zeta. split; [intros y; apply rp_cut_pen; auto|intros y b Hb; apply rp_cut_ben; auto].
Qed.
Lemma soed_up_exact : up_exact soed_up soed_pt soed_bt.
Proof.
  intros k part w u v Hk Huv. split.
  - intros pins pc ND Hpc Hpos. cbv zeta. split; [intros y; apply rs_soed_pen; auto|intros y b Hb; apply rs_soed_ben; auto].
  - intros l1 l2 pc ND Nv Hpc. cbv zeta. split; [intros y; apply rp_soed_pen; auto|intros y b Hb; apply rp_soed_ben; auto].
Qed.
