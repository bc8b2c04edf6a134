(** The growing hash map with entries in place.

    /repo/mt-kahypar/datastructures/sparse_map.h:445-542 (DynamicMapBase) and
    668-770 (DynamicFlatMap).

    Simplifications: as in DynMap.v. *)
From Coq Require Import List Arith Lia Bool ZArith.
From Verif Require Import Base DynMap.
Import ListNotations.
Local Open Scope nat_scope.

Section Model.
Context {V : Type}.
Variable dflt : V.
Record fmap := mkF { f_log : nat; f_size : nat; f_ts : nat; f_el : nat -> (nat * V) * nat (* key, value, timestamp *) }.
Definition fcap (s : fmap) : nat := 2 ^ f_log s.
(** 484-491 *)
Definition finit (c : nat) : fmap := mkF c 0 1 (fun _ => ((0, dflt), 0)).
(** 717-726 findImpl *)
Fixpoint fprobe (s : fmap) (key : nat) (fuel hash : nat) : option pos :=
  match fuel with
  | 0 => None
  | S fuel' =>
      if snd (f_el s hash) =? f_ts s
      then if fst (fst (f_el s hash)) =? key then Some (Found hash) else fprobe s key fuel' (Nat.land (hash + 1) (fcap s - 1))
      else Some (Free hash)
  end.
Definition ffind (s : fmap) (key : nat) : option pos := fprobe s key (fcap s) (Nat.land key (fcap s - 1)).
(** 734-739 addElementImpl *)
Definition fadd (s : fmap) (key : nat) (v : V) (p : nat) : fmap := mkF (f_log s) (S (f_size s)) (f_ts s) (upd (f_el s) p ((key, v), f_ts s)).
(** 745-759 rehashImpl: the positions in ascending order, those with the current timestamp *)
Definition fentries (s : fmap) : list (nat * V) := map (fun p => fst (f_el s p)) (filter (fun p => snd (f_el s p) =? f_ts s) (seq 0 (fcap s))).
Definition frehash (s : option fmap) (x : nat * V) : option fmap :=
  match s with
  | Some s => match ffind s (fst x) with Some (Found p) | Some (Free p) => Some (fadd s (fst x) (snd x) p) | None => None end
  | None => None
  end.
Definition fgrow (s : fmap) : option fmap := fold_left frehash (fentries s) (Some (finit (S (f_log s)))).
(** 498-509 operator[] *)
Definition fstore (s : fmap) (p : nat) (f : V -> V) : fmap :=
  mkF (f_log s) (f_size s) (f_ts s) (upd (f_el s) p ((fst (fst (f_el s p)), f (snd (fst (f_el s p)))), snd (f_el s p))).
Definition faccess (s : fmap) (key : nat) (f : V -> V) : option fmap :=
  match ffind s key with
  | None => None
  | Some (Found p) => Some (fstore s p f)
  | Some (Free p) =>
      if fcap s * 2 / 5 <? f_size s + 1
      then match fgrow s with
           | Some g => match ffind g key with Some (Found q) | Some (Free q) => Some (fstore (fadd g key dflt q) q f) | None => None end
           | None => None
           end
      else Some (fstore (fadd s key dflt p) p f)
  end.
(** 521-524 *)
Definition fclear (s : fmap) : fmap := mkF (f_log s) 0 (S (f_ts s)) (f_el s).
Definition fstep (s : option fmap) (o : op) : option fmap :=
  match s with Some s => match o with Access k f => faccess s k f | Clear => Some (fclear s) end | None => None end.
Definition frun (c : nat) (l : list op) : option fmap := fold_left fstep l (Some (finit c)).
Definition flookup (s : fmap) (key : nat) : option V :=
  match ffind s key with Some (Found p) => Some (snd (fst (f_el s p))) | _ => None end.

(** ** Proofs *)
Definition flive (s : fmap) (p : nat) : bool := snd (f_el s p) =? f_ts s.
Definition fkey (s : fmap) (p : nat) : nat := fst (fst (f_el s p)).
Definition fat (s : fmap) (key d : nat) : nat := (key + d) mod fcap s.
Record finv (s : fmap) : Prop := {
  w_cnt : length (filter (flive s) (seq 0 (fcap s))) = f_size s;
  w_size : f_size s < fcap s;
  w_ts : forall p, snd (f_el s p) <= f_ts s;
  w_keys : forall p q, p < fcap s -> q < fcap s -> flive s p = true -> flive s q = true -> fkey s p = fkey s q -> p = q;
  w_path : forall p, p < fcap s -> flive s p = true -> exists d, d < fcap s /\ fat s (fkey s p) d = p /\ forall d', d' < d -> flive s (fat s (fkey s p) d') = true;
  w_pos : 0 < f_ts s
}.
Lemma fcap_pos s : 0 < fcap s.
Proof. unfold fcap. induction (f_log s); cbn; lia. Qed.
Lemma fland s x : Nat.land x (fcap s - 1) = x mod fcap s.
Proof. unfold fcap. rewrite Nat.sub_1_r, <- Nat.ones_equiv. apply Nat.land_ones. Qed.
Lemma fat_lt s k d : fat s k d < fcap s.
Proof. unfold fat. apply Nat.mod_upper_bound. pose proof (fcap_pos s). lia. Qed.
Lemma fat_next s k d : Nat.land (fat s k d + 1) (fcap s - 1) = fat s k (S d).
Proof. rewrite fland. unfold fat. rewrite Nat.add_mod_idemp_l by (pose proof (fcap_pos s); lia). f_equal. lia. Qed.
Lemma fat_surj s k p : p < fcap s -> exists d, d < fcap s /\ fat s k d = p.
Proof.
  intros L. pose proof (fcap_pos s) as C. exists ((p + (fcap s - k mod fcap s)) mod fcap s). split; [apply Nat.mod_upper_bound; lia|].
  unfold fat. rewrite Nat.add_mod_idemp_r by lia. pose proof (Nat.div_mod k (fcap s) ltac:(lia)) as D. pose proof (Nat.mod_upper_bound k (fcap s) ltac:(lia)) as U.
  replace (k + (p + (fcap s - k mod fcap s))) with (p + (k / fcap s + 1) * fcap s) by nia. rewrite Nat.mod_add by lia. apply Nat.mod_small. exact L.
Qed.
Lemma not_all {A} (f : A -> bool) l : length (filter f l) < length l -> exists x, In x l /\ f x = false.
Proof.
  induction l as [|a l IH]; cbn; [lia|]. destruct (f a) eqn:E; cbn; [|intros _; exists a; auto]. intros L. destruct IH as (x & Hx & F); [lia|]. exists x. auto.
Qed.
Lemma filter_one (f g : nat -> bool) l u : NoDup l -> In u l -> (forall x, x <> u -> f x = g x) -> f u = true -> g u = false -> length (filter f l) = S (length (filter g l)).
Proof.
  intros N Hu E F G. induction N as [|a l Ha N IH]; [destruct Hu|]. cbn [filter]. destruct Hu as [->|Hu].
  - rewrite F, G. cbn. f_equal. f_equal. apply filter_ext_in. intros x Hx. apply E. intros ->. contradiction.
  - rewrite (E a) by (intros ->; contradiction). destruct (g a); cbn; rewrite IH; auto.
Qed.
Lemma ffree_exists s k : finv s -> exists d, d < fcap s /\ flive s (fat s k d) = false.
Proof.
  intros I. destruct (not_all (flive s) (seq 0 (fcap s))) as (p & Hp & F).
  - rewrite (w_cnt _ I), seq_length. apply (w_size _ I).
  - apply in_seq in Hp. destruct (fat_surj s k p ltac:(lia)) as (d & Ld & <-). exists d. auto.
Qed.
Lemma fprobe_spec s k fuel : forall d, d + fuel = fcap s -> (forall d', d' < d -> flive s (fat s k d') = true /\ fkey s (fat s k d') <> k) ->
  (exists e, d <= e < fcap s /\ flive s (fat s k e) = false) ->
  exists e, e < fcap s /\ (forall d', d' < e -> flive s (fat s k d') = true /\ fkey s (fat s k d') <> k) /\
    ((flive s (fat s k e) = false /\ fprobe s k fuel (fat s k d) = Some (Free (fat s k e))) \/
     (flive s (fat s k e) = true /\ fkey s (fat s k e) = k /\ fprobe s k fuel (fat s k d) = Some (Found (fat s k e)))).
Proof.
  induction fuel as [|fuel IH]; intros d L P (e & He & F); [lia|]. cbn [fprobe]. fold (flive s (fat s k d)). fold (fkey s (fat s k d)).
  destruct (flive s (fat s k d)) eqn:Lv; [|exists d; split; [lia|]; split; auto].
  destruct (fkey s (fat s k d) =? k) eqn:K.
  - apply Nat.eqb_eq in K. exists d. split; [lia|]. split; auto.
  - apply Nat.eqb_neq in K. rewrite fat_next. apply (IH (S d)); [lia| |].
    + intros d' Hd. destruct (Nat.eq_dec d' d) as [->|]; auto. apply P. lia.
    + exists e. split; auto. destruct (Nat.eq_dec e d) as [->|]; [congruence|lia].
Qed.
Lemma ffind_spec s k : finv s -> exists e, e < fcap s /\ (forall d', d' < e -> flive s (fat s k d') = true /\ fkey s (fat s k d') <> k) /\
    ((flive s (fat s k e) = false /\ ffind s k = Some (Free (fat s k e))) \/
     (flive s (fat s k e) = true /\ fkey s (fat s k e) = k /\ ffind s k = Some (Found (fat s k e)))).
Proof.
  intros I. unfold ffind. rewrite fland. replace (k mod fcap s) with (fat s k 0) by (unfold fat; f_equal; lia).
  apply fprobe_spec; [reflexivity|lia|]. destruct (ffree_exists s k I) as (e & He & F). exists e. split; auto. lia.
Qed.
Definition absent (s : fmap) (k : nat) : Prop := forall p, p < fcap s -> flive s p = true -> fkey s p <> k.
Lemma ffind_found s p : finv s -> p < fcap s -> flive s p = true -> ffind s (fkey s p) = Some (Found p).
Proof.
  intros I Lp Lv. destruct (ffind_spec s (fkey s p) I) as (e & He & P & C). destruct (w_path _ I p Lp Lv) as (d & Hd & X & Q).
  destruct C as [(F & E)|(F & K & E)].
  - exfalso. destruct (Nat.lt_trichotomy d e) as [Y|[Y|Y]].
    + destruct (P d Y) as (_ & K). apply K. now rewrite X.
    + subst e. rewrite X in F. congruence.
    + rewrite (Q e Y) in F. discriminate.
  - rewrite E. do 2 f_equal. apply (w_keys _ I); auto using fat_lt.
Qed.
Lemma ffind_free s k : finv s -> absent s k -> exists e, e < fcap s /\ ffind s k = Some (Free (fat s k e)) /\
  flive s (fat s k e) = false /\ forall d', d' < e -> flive s (fat s k d') = true.
Proof.
  intros I N. destruct (ffind_spec s k I) as (e & He & P & C). destruct C as [(F & E)|(F & K & E)].
  - exists e. split; auto. split; auto. split; auto. intros d' L. apply P. auto.
  - exfalso. apply (N (fat s k e)); auto using fat_lt.
Qed.
Lemma fentries_in s k v : In (k, v) (fentries s) <-> exists p, p < fcap s /\ flive s p = true /\ fst (f_el s p) = (k, v).
Proof.
  unfold fentries. rewrite in_map_iff. split.
  - intros (p & A & B). apply filter_In in B. destruct B as (B & C). apply in_seq in B. exists p. split; [lia|]. auto.
  - intros (p & A & B & C). exists p. split; auto. apply filter_In. split; [apply in_seq; lia|exact B].
Qed.
Lemma fkey_dec s k : (exists p, p < fcap s /\ flive s p = true /\ fkey s p = k) \/ absent s k.
Proof.
  destruct (existsb (fun p => flive s p && (fkey s p =? k)) (seq 0 (fcap s))) eqn:E.
  - apply existsb_exists in E. destruct E as (p & Hp & X). apply andb_true_iff in X. destruct X as (X & Y). apply Nat.eqb_eq in Y. apply in_seq in Hp. left. exists p. split; [lia|auto].
  - right. intros p Lp Lv K. assert (X : existsb (fun p => flive s p && (fkey s p =? k)) (seq 0 (fcap s)) = true); [|congruence].
    apply existsb_exists. exists p. split; [apply in_seq; lia|]. rewrite Lv, K, Nat.eqb_refl. reflexivity.
Qed.
Lemma absent_iff s k : absent s k <-> forall v, ~ In (k, v) (fentries s).
Proof.
  split.
  - intros A v Hv. apply fentries_in in Hv. destruct Hv as (p & L & Lv & E). apply (A p L Lv). unfold fkey. now rewrite E.
  - intros N p L Lv K. apply (N (snd (fst (f_el s p)))). apply fentries_in. exists p. split; auto. split; auto. rewrite <- K. unfold fkey. now destruct (fst (f_el s p)).
Qed.
Lemma filter_none {A} (f : A -> bool) l : (forall x, In x l -> f x = false) -> filter f l = [].
Proof. induction l as [|a l IH]; cbn; auto. intros F. rewrite (F a) by auto. apply IH. auto. Qed.
Lemma fempty s : (forall p, flive s p = false) -> f_size s = 0 -> (forall p, snd (f_el s p) <= f_ts s) -> 0 < f_ts s -> finv s /\ forall x, ~ In x (fentries s).
Proof.
  intros F Z T P. split.
  - constructor; auto; try (rewrite Z; apply fcap_pos).
    + rewrite filter_none by auto. now rewrite Z.
    + intros p q _ _ L. rewrite F in L. discriminate.
    + intros p _ L. rewrite F in L. discriminate.
  - intros [k v] Hx. apply fentries_in in Hx. destruct Hx as (p & _ & L & _). rewrite F in L. discriminate.
Qed.
Lemma fadd_spec s k v e : finv s -> S (f_size s) < fcap s -> absent s k -> e < fcap s ->
  flive s (fat s k e) = false -> (forall d', d' < e -> flive s (fat s k d') = true) ->
  finv (fadd s k v (fat s k e)) /\ (forall x, In x (fentries (fadd s k v (fat s k e))) <-> In x (fentries s) \/ x = (k, v)).
Proof.
  intros I Z N He F P. set (p0 := fat s k e) in *. assert (P0 : p0 < fcap s) by apply fat_lt.
  assert (LV : forall p, flive (fadd s k v p0) p = (p =? p0) || flive s p).
  { intros p. unfold flive, fadd, upd. cbn. destruct (p =? p0); cbn; auto. apply Nat.eqb_refl. }
  assert (EL : forall p, fst (f_el (fadd s k v p0) p) = if p =? p0 then (k, v) else fst (f_el s p)).
  { intros p. unfold fadd, upd. cbn. destruct (p =? p0); reflexivity. }
  assert (KY : forall p, fkey (fadd s k v p0) p = if p =? p0 then k else fkey s p).
  { intros p. unfold fkey. rewrite EL. destruct (p =? p0); reflexivity. }
  split.
  - constructor; change (fcap (fadd s k v p0)) with (fcap s); change (f_size (fadd s k v p0)) with (S (f_size s)); change (f_ts (fadd s k v p0)) with (f_ts s); change (fat (fadd s k v p0)) with (fat s).
    + rewrite <- (w_cnt _ I). apply filter_one with p0; [apply seq_NoDup|apply in_seq; lia| | |exact F].
      * intros x Hx. rewrite LV. destruct (Nat.eqb_spec x p0); [contradiction|reflexivity].
      * rewrite LV, Nat.eqb_refl. reflexivity.
    + exact Z.
    + intros p. cbn. unfold upd. destruct (p =? p0); cbn; [lia|apply (w_ts _ I)].
    + intros p q Lp Lq. rewrite !LV, !KY. destruct (Nat.eqb_spec p p0), (Nat.eqb_spec q p0); cbn; intros A B E; try congruence.
      * exfalso. apply (N q); auto.
      * exfalso. apply (N p); auto.
      * now apply (w_keys _ I).
    + intros p Lp. rewrite LV, KY. destruct (Nat.eqb_spec p p0) as [->|Ne]; cbn; intros Lv.
      * exists e. split; auto. split; auto. intros d' Ld. rewrite LV, P by auto. apply orb_true_r.
      * destruct (w_path _ I p Lp Lv) as (d & Ld & A & B). exists d. split; auto. split; auto. intros d' Ld'. rewrite LV, (B d' Ld'). apply orb_true_r.
    + apply (w_pos _ I).
  - intros [x w]. rewrite !fentries_in. change (fcap (fadd s k v p0)) with (fcap s). split.
    + intros (p & Lp & Lv & E). rewrite LV in Lv. rewrite EL in E. destruct (Nat.eqb_spec p p0); [right; congruence|left; exists p; auto].
    + intros [(p & Lp & Lv & E)|E].
      * exists p. split; auto. rewrite LV, EL. destruct (Nat.eqb_spec p p0) as [->|]; [congruence|auto].
      * exists p0. split; auto. rewrite LV, EL, Nat.eqb_refl. split; auto.
Qed.
Lemma frehash_spec l : forall s, finv s -> f_size s + length l < fcap s -> NoDup (map fst l) -> (forall x, In x l -> absent s (fst x)) ->
  exists g, fold_left frehash l (Some s) = Some g /\ finv g /\ f_log g = f_log s /\ f_size g = f_size s + length l /\ forall x, In x (fentries g) <-> In x (fentries s) \/ In x l.
Proof.
  induction l as [|[k v] l IH]; intros s I Z N A; cbn [fold_left length map fst] in *.
  - exists s. split; auto. split; auto. split; auto. split; [lia|]. cbn. tauto.
  - inversion N as [|? ? N1 N2]; subst. pose proof (A (k, v) (or_introl eq_refl)) as Ak. cbn in Ak.
    destruct (ffind_free s k I Ak) as (e & Le & E & Lv & P). cbn [frehash fst snd]. rewrite E.
    destruct (fadd_spec s k v e I ltac:(lia) Ak Le Lv P) as (I' & En).
    destruct (IH (fadd s k v (fat s k e)) I') as (g & X1 & X2 & X3 & X4 & X5).
    + change (fcap (fadd s k v (fat s k e))) with (fcap s). cbn [fadd f_size]. lia.
    + exact N2.
    + intros [x w] Hx. apply absent_iff. intros u Hu. apply En in Hu. destruct Hu as [Hu|Hu].
      * pose proof (A (x, w) (or_intror Hx)) as Ax. cbn in *. apply (proj1 (absent_iff s x) Ax u Hu).
      * cbn in Hu. injection Hu as -> _. apply N1. apply in_map_iff. exists (k, w). auto.
    + exists g. split; auto. split; auto. split; auto. split; [rewrite X4; cbn [fadd f_size]; lia|]. intros x. rewrite X5, En. cbn [In]. intuition congruence.
Qed.
Lemma fentries_keys s : finv s -> NoDup (map fst (fentries s)).
Proof.
  intros I. unfold fentries. rewrite map_map. apply nodup_map_in.
  - intros x y Hx Hy E. apply filter_In in Hx, Hy. destruct Hx as (Hx & Lx), Hy as (Hy & Ly). apply in_seq in Hx, Hy. apply (w_keys _ I); auto; lia.
  - apply NoDup_filter, seq_NoDup.
Qed.
Lemma fentries_len s : finv s -> length (fentries s) = f_size s.
Proof. intros I. unfold fentries. rewrite map_length. apply (w_cnt _ I). Qed.
Lemma finit_ok c : finv (finit c) /\ forall x, ~ In x (fentries (finit c)).
Proof. apply fempty; cbn; auto. Qed.
Lemma fgrow_spec s : finv s -> exists g, fgrow s = Some g /\ finv g /\ f_log g = S (f_log s) /\ f_size g = f_size s /\ forall x, In x (fentries g) <-> In x (fentries s).
Proof.
  intros I. unfold fgrow. destruct (finit_ok (S (f_log s))) as (I0 & E0). destruct (frehash_spec (fentries s) (finit (S (f_log s))) I0) as (g & A & B & C & D & E).
  - rewrite fentries_len by auto. cbn [finit f_size]. pose proof (w_size _ I). unfold fcap in *. cbn [finit f_log]. rewrite Nat.pow_succ_r'. lia.
  - now apply fentries_keys.
  - intros x _. apply absent_iff. intros v. apply E0.
  - exists g. split; auto. split; auto. split; auto. split; [rewrite D, fentries_len; auto|]. intros x. rewrite E. specialize (E0 x). tauto.
Qed.
Definition frepr (s : fmap) (m : nat -> option V) : Prop := forall k v, In (k, v) (fentries s) <-> m k = Some v.
Lemma frepr_none s m k : frepr s m -> absent s k -> m k = None.
Proof. intros R N. destruct (m k) as [v|] eqn:E; auto. exfalso. apply R in E. apply (proj1 (absent_iff s k) N v E). Qed.
Lemma fstore_spec s m p f : finv s -> frepr s m -> p < fcap s -> flive s p = true -> finv (fstore s p f) /\ frepr (fstore s p f) (spec_step dflt m (Access (fkey s p) f)).
Proof.
  intros I R Lp Lv.
  assert (EL : forall q, f_el (fstore s p f) q = if q =? p then ((fkey s p, f (snd (fst (f_el s p)))), snd (f_el s p)) else f_el s q).
  { intros q. cbn. unfold upd. destruct (q =? p); reflexivity. }
  assert (LV : forall q, flive (fstore s p f) q = flive s q).
  { intros q. unfold flive. rewrite EL. change (f_ts (fstore s p f)) with (f_ts s). destruct (Nat.eqb_spec q p) as [->|]; reflexivity. }
  assert (KY : forall q, fkey (fstore s p f) q = fkey s q).
  { intros q. unfold fkey at 1. rewrite EL. destruct (Nat.eqb_spec q p) as [->|]; reflexivity. }
  split.
  - destruct I as [A B C D E G]. constructor; auto.
    + rewrite (filter_ext _ _ LV). exact A.
    + intros q. rewrite EL. change (f_ts (fstore s p f)) with (f_ts s). destruct (q =? p); cbn; auto.
    + intros q r Lq Lr. rewrite !LV, !KY. auto.
    + intros q Lq. rewrite LV, KY. intros Lq'. destruct (E q Lq Lq') as (d & X & Y & W). exists d. split; auto. split; auto. intros d' Ld. rewrite LV. exact (W d' Ld).
  - assert (M : m (fkey s p) = Some (snd (fst (f_el s p)))). { apply R. apply fentries_in. exists p. split; auto. split; auto. unfold fkey. now destruct (fst (f_el s p)). }
    intros x v. rewrite fentries_in. change (fcap (fstore s p f)) with (fcap s). cbn [spec_step]. destruct (Nat.eqb_spec x (fkey s p)) as [->|Ne].
    + rewrite M. split.
      * intros (q & Lq & Lvq & E). rewrite LV in Lvq. assert (q = p).
        { apply (w_keys _ I); auto. rewrite <- (KY q). unfold fkey. now rewrite E. }
        subst q. rewrite EL, Nat.eqb_refl in E. cbn in E. congruence.
      * intros E. injection E as <-. exists p. split; auto. rewrite LV, EL, Nat.eqb_refl. auto.
    + rewrite <- (R x v), fentries_in. split; intros (q & Lq & Lvq & E); exists q; split; auto; rewrite LV, EL in *; split; auto; destruct (Nat.eqb_spec q p) as [->|]; auto; exfalso; apply Ne; unfold fkey; cbn in E; rewrite ?E; auto.
      injection E as <- _. reflexivity.
Qed.
Lemma finsert s m k f e : finv s -> frepr s m -> absent s k -> S (f_size s) < fcap s -> e < fcap s ->
  flive s (fat s k e) = false -> (forall d', d' < e -> flive s (fat s k d') = true) ->
  finv (fstore (fadd s k dflt (fat s k e)) (fat s k e) f) /\ frepr (fstore (fadd s k dflt (fat s k e)) (fat s k e) f) (spec_step dflt m (Access k f)).
Proof.
  intros I R N Z Le Lv P. destruct (fadd_spec s k dflt e I Z N Le Lv P) as (I' & En). pose proof (frepr_none _ _ _ R N) as M.
  set (s' := fadd s k dflt (fat s k e)) in *. assert (R' : frepr s' (fun x => if x =? k then Some dflt else m x)).
  { intros x v. rewrite En, (R x v). destruct (Nat.eqb_spec x k) as [->|Ne]; [rewrite M|]; split; [intros [X|X]; congruence|right; congruence|intros [X|X]; congruence|auto]. }
  assert (K : fkey s' (fat s k e) = k) by (unfold fkey, s'; cbn [fadd f_el]; rewrite upd_same; reflexivity).
  destruct (fstore_spec s' _ (fat s k e) f I' R' (fat_lt s k e)) as (A & B).
  - unfold flive, s'. cbn [fadd f_el f_ts]. rewrite upd_same. apply Nat.eqb_refl.
  - split; auto. rewrite K in B. intros x v. rewrite (B x v). cbn [spec_step]. rewrite Nat.eqb_refl, M. destruct (x =? k); reflexivity.
Qed.
Lemma faccess_spec s m k f : finv s -> frepr s m -> exists t, faccess s k f = Some t /\ finv t /\ frepr t (spec_step dflt m (Access k f)).
Proof.
  intros I R. unfold faccess. destruct (fkey_dec s k) as [(p & Lp & Lv & <-)|N].
  - rewrite (ffind_found s p I Lp Lv). eexists. split; [reflexivity|]. now apply fstore_spec.
  - destruct (ffind_free s k I N) as (e & Le & -> & Lv & P). destruct (Nat.ltb_spec (fcap s * 2 / 5) (f_size s + 1)) as [G|G].
    + destruct (fgrow_spec s I) as (g & -> & Ig & Lg & Sg & Eg).
      assert (Rg : frepr g m) by (intros x v; rewrite Eg; apply R).
      assert (Ng : absent g k) by (apply absent_iff; intros v Hv; apply Eg in Hv; exact (proj1 (absent_iff s k) N v Hv)).
      destruct (ffind_free g k Ig Ng) as (e' & Le' & -> & Lv' & P'). eexists. split; [reflexivity|]. apply finsert; auto.
      rewrite Sg. pose proof (w_size _ I). unfold fcap in *. rewrite Lg, Nat.pow_succ_r'. lia.
    + eexists. split; [reflexivity|]. apply finsert; auto. pose proof (fcap_pos s). pose proof (Nat.div_lt_upper_bound (fcap s * 2) 5 (fcap s) ltac:(lia) ltac:(lia)). lia.
Qed.
Lemma fclear_spec s : finv s -> finv (fclear s) /\ forall x, ~ In x (fentries (fclear s)).
Proof.
  intros I. apply fempty; auto.
  - intros p. unfold flive. cbn. apply Nat.eqb_neq. pose proof (w_ts _ I p). lia.
  - intros p. cbn. pose proof (w_ts _ I p). lia.
  - cbn. lia.
Qed.

(** ** Theorem: the map with entries in place *)
(** The same specification as for DynamicSparseMap (C92_map). *)
Theorem C92_flat c l : exists s, frun c l = Some s /\
  (forall k, ffind s k <> None /\ flookup s k = spec dflt l k) /\
  (forall k v, In (k, v) (fentries s) <-> spec dflt l k = Some v) /\ NoDup (map fst (fentries s)) /\
  f_size s = length (fentries s) /\ f_size s < fcap s.
Proof.
  assert (G : exists s, frun c l = Some s /\ finv s /\ frepr s (spec dflt l)).
  { unfold frun, spec. assert (G : forall l s m, finv s -> frepr s m -> exists t, fold_left fstep l (Some s) = Some t /\ finv t /\ frepr t (fold_left (spec_step dflt) l m)).
    { clear l. induction l as [|o l IH]; intros s m I R; cbn [fold_left]; [exists s; auto|]. destruct o as [k f|]; cbn [fstep].
      - destruct (faccess_spec s m k f I R) as (t & -> & It & Rt). apply IH; auto.
      - destruct (fclear_spec s I) as (A & B). apply IH; auto. intros k v. cbn [spec_step]. split; [intros X; destruct (B _ X)|discriminate]. }
    destruct (finit_ok c) as (A & B). apply G; auto. intros k v. split; [intros X; destruct (B _ X)|discriminate]. }
  destruct G as (s & E & I & R). exists s. split; auto. split; [|split; [exact R|split; [now apply fentries_keys|split; [symmetry; now apply fentries_len|apply (w_size _ I)]]]].
  intros k. unfold flookup. destruct (fkey_dec s k) as [(p & Lp & Lv & <-)|N].
  - rewrite (ffind_found s p I Lp Lv). split; [discriminate|]. symmetry. apply R. apply fentries_in. exists p. split; auto. split; auto. unfold fkey. now destruct (fst (f_el s p)).
  - destruct (ffind_free s k I N) as (e & _ & -> & _). split; [discriminate|]. symmetry. eapply frepr_none; eauto.
Qed.
End Model.
Theorem C92_flat_example : (match frun 0 2 exops with Some s => Some (f_log s, fentries s, map (ffind s) [7; 15; 8; 3]) | None => None end) =
  Some (3, [(15, 2); (8, 1); (7, 1)], [Some (Found 7); Some (Found 0); Some (Found 1); Some (Free 3)]).
Proof. vm_compute. reflexivity. Qed.
Print Assumptions C92_flat.
