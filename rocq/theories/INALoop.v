(** Lemmas about the entry arrays of the incident net array. *)
From Coq Require Import List Arith Lia ZArith Bool Permutation.
From Verif Require Import Base INA INASpec.
Import ListNotations.
Local Open Scope nat_scope.

Lemma set_nth_app {A} (p : list A) x y l :
  set_nth (p ++ x :: l) (length p) y = p ++ y :: l.
Proof. induction p as [|z p IH]; cbn; [reflexivity|]. rewrite IH. reflexivity. Qed.
Lemma nth_app_mid {A} (p : list A) x l d : nth (length p) (p ++ x :: l) d = x.
Proof. induction p as [|z p IH]; cbn; [reflexivity|]. exact IH. Qed.

Lemma swap_mid p x b y l :
  swap_nth (p ++ x :: b ++ y :: l) (length p) (length p + S (length b))
  = p ++ y :: b ++ x :: l.
Proof.
  unfold swap_nth. rewrite nth_app_mid.
  assert (E : forall z, p ++ z :: b ++ y :: l = (p ++ z :: b) ++ y :: l)
    by (intros; rewrite <- app_assoc; reflexivity).
  assert (L : forall z : nat * Z, length p + S (length b) = length (p ++ z :: b))
    by (intros; rewrite app_length; reflexivity).
  assert (E1 : nth (length p + S (length b)) (p ++ x :: b ++ y :: l) (0, 0%Z) = y)
    by (rewrite (E x), (L x), nth_app_mid; reflexivity).
  rewrite E1. clear E1. rewrite set_nth_app, (E y), (L y), set_nth_app, <- app_assoc. reflexivity.
Qed.
Lemma swap_self p x l : swap_nth (p ++ x :: l) (length p) (length p) = p ++ x :: l.
Proof. unfold swap_nth. rewrite nth_app_mid, !set_nth_app. reflexivity. Qed.

Lemma rem_loop_spec S' nv : forall n p a tl rm, length a = n ->
  exists keep rmv,
    rem_loop S' nv n (length p) (p ++ a ++ tl) rm
      = (p ++ keep ++ rmv ++ tl, rm + length rmv) /\
    Permutation keep (map (fun en => (fst en, nv)) (filter (fun en => negb (S' (fst en))) a)) /\
    Permutation rmv (filter (fun en => S' (fst en)) a).
Proof.
  induction n as [|n IH]; intros p a tl rm L.
  - destruct a; [|discriminate]. exists [], []. cbn. split; [f_equal; lia|split; auto].
  - destruct a as [|x a]; [discriminate|]. cbn in L. injection L as L.
    cbn [rem_loop]. cbn [app]. rewrite nth_app_mid. cbn [filter].
    destruct (S' (fst x)) eqn:Ex; cbn [negb].
    + assert (Hs : a = [] \/ exists b y, a = b ++ [y])
        by (destruct a using rev_ind; [left; reflexivity|right; eauto]).
      destruct Hs as [->|(a' & z & ->)].
      * cbn in L. subst n. rewrite Nat.add_0_r. cbn [app]. rewrite swap_self.
        cbn [rem_loop]. exists [], [x]. cbn. split; [f_equal; lia|split; auto].
      * rewrite app_length in L. cbn in L.
        rewrite <- app_assoc. cbn [app].
        replace (length p + n) with (length p + S (length a')) by lia.
        rewrite swap_mid.
        destruct (IH p (z :: a') (x :: tl) (S rm)) as (k & r & E & Pk & Pr); [cbn; lia|].
        replace (p ++ z :: a' ++ x :: tl) with (p ++ (z :: a') ++ x :: tl) by reflexivity.
        rewrite E. exists k, (r ++ [x]). split; [|split].
        -- rewrite <- app_assoc. cbn. f_equal. rewrite app_length. cbn. lia.
        -- etransitivity; [exact Pk|]. apply Permutation_map.
           change (z :: a') with ([z] ++ a'). rewrite !filter_app. apply Permutation_app_comm.
        -- etransitivity; [apply Permutation_app_comm|]. cbn. constructor.
           etransitivity; [exact Pr|].
           change (z :: a') with ([z] ++ a'). rewrite !filter_app. apply Permutation_app_comm.
    + rewrite set_nth_app.
      destruct (IH (p ++ [(fst x, nv)]) a tl rm L) as (k & r & E & Pk & Pr).
      rewrite app_length in E. cbn in E. rewrite Nat.add_comm in E. cbn in E.
      rewrite <- app_assoc in E. cbn in E. rewrite E.
      exists ((fst x, nv) :: k), r. split; [|split].
      * rewrite <- app_assoc. reflexivity.
      * cbn. constructor. exact Pk.
      * exact Pr.
Qed.

(** ** levels of removed entries *)
Fixpoint content (Ss : list (nat -> bool)) (l : list nat) : list nat :=
  match Ss with
  | [] => l
  | R :: Ss' => filter (fun e => negb (R e)) (content Ss' l)
  end.

Fixpoint arr (Nw : list nat) (Ss : list (nat -> bool)) (l : list (nat * Z)) (sz : nat) : Prop :=
  match Ss with
  | [] => sz = length l /\ Permutation (map fst l) Nw
  | R :: Ss' => exists a r tl, l = a ++ r ++ tl /\ sz = length a /\
      Permutation (map fst a) (filter (fun e => negb (R e)) (content Ss' Nw)) /\
      Permutation (map fst r) (filter R (content Ss' Nw)) /\
      (forall en, In en r -> snd en = Z.of_nat (length Ss')) /\
      arr Nw Ss' l (length a + length r)
  end.

Lemma arr_content Nw Ss l sz : arr Nw Ss l sz ->
  Permutation (map fst (firstn sz l)) (content Ss Nw) /\ sz <= length l.
Proof.
  destruct Ss as [|R Ss]; cbn.
  - intros [-> P]. rewrite firstn_all. split; [exact P|lia].
  - intros (a & r & tl & -> & -> & Pa & _). rewrite firstn_app, Nat.sub_diag, firstn_all. cbn.
    rewrite app_nil_r. split; [exact Pa|]. rewrite app_length. lia.
Qed.

Lemma arr_length Nw Ss l sz : arr Nw Ss l sz -> sz = length (content Ss Nw).
Proof.
  intros H. destruct (arr_content _ _ _ _ H) as [P Hl].
  apply Permutation_length in P. rewrite map_length, firstn_length in P. lia.
Qed.

(** entries behind the active ones carry smaller versions *)
Lemma arr_rest Nw Ss : forall l sz, arr Nw Ss l sz ->
  forall en, In en (skipn sz l) -> (snd en < Z.of_nat (length Ss))%Z.
Proof.
  induction Ss as [|R Ss IH]; cbn; intros l sz H en Hin.
  - destruct H as [-> _]. rewrite skipn_all in Hin. destruct Hin.
  - destruct H as (a & r & tl & -> & -> & _ & _ & Hr & H).
    rewrite skipn_app, skipn_all, Nat.sub_diag in Hin. cbn in Hin.
    apply in_app_or in Hin. destruct Hin as [Hin|Hin].
    + rewrite (Hr _ Hin). lia.
    + specialize (IH _ _ H en). rewrite app_assoc, <- app_length in IH.
      rewrite skipn_app, skipn_all, Nat.sub_diag in IH. cbn in IH. specialize (IH Hin). lia.
Qed.

Lemma lead_app nv r tl : (forall en, In en r -> snd en = nv) ->
  (forall en, In en tl -> snd en <> nv) -> lead nv (r ++ tl) = length r.
Proof.
  induction r as [|x r IH]; cbn; intros H1 H2.
  - destruct tl as [|y tl]; [reflexivity|]. cbn.
    destruct (Z.eqb_spec (snd y) nv) as [E|]; [|reflexivity]. destruct (H2 y); cbn; auto.
  - rewrite (H1 x) by auto. rewrite Z.eqb_refl, IH; auto.
Qed.

(** restoring one level *)
Lemma arr_restore Nw R Ss l sz : arr Nw (R :: Ss) l sz ->
  let k := lead (Z.of_nat (length (R :: Ss)) - 1) (skipn sz l) in
  arr Nw Ss l (sz + k) /\
  Permutation (map fst (firstn k (skipn sz l))) (filter R (content Ss Nw)).
Proof.
  cbn [arr]. intros (a & r & tl & -> & -> & Pa & Pr & Hr & H).
  rewrite skipn_app, skipn_all, Nat.sub_diag. cbn [app skipn].
  assert (E : lead (Z.of_nat (length (R :: Ss)) - 1) (r ++ tl) = length r).
  { apply lead_app.
    - intros en Hin. rewrite (Hr _ Hin). cbn [length]. lia.
    - intros en Hin. cbn [length]. pose proof (arr_rest _ _ _ _ H en) as X.
      rewrite app_assoc, <- app_length in X.
      rewrite skipn_app, skipn_all, Nat.sub_diag in X. cbn in X. specialize (X Hin). lia. }
  cbv zeta. rewrite E. split; [exact H|].
  rewrite firstn_app, Nat.sub_diag, firstn_all. cbn. rewrite app_nil_r. exact Pr.
Qed.

Lemma Permutation_filter_neg {A} (f : A -> bool) l l' : Permutation l l' ->
  Permutation (filter f l) (filter f l').
Proof.
  induction 1 as [|x l l' P IH|x y l|l l2 l3 P1 IH1 P2 IH2]; cbn; auto.
  - destruct (f x); auto.
  - destruct (f x), (f y); auto. apply perm_swap.
  - etransitivity; eauto.
Qed.

Lemma filter_map_fst (f : nat -> bool) (l : list (nat * Z)) :
  map fst (filter (fun en => f (fst en)) l) = filter f (map fst l).
Proof. induction l as [|x l IH]; cbn; [reflexivity|]. destruct (f (fst x)); cbn; rewrite IH; reflexivity. Qed.

(** permuting the active part and changing its versions *)
Lemma arr_perm Nw Ss : forall l sz l', arr Nw Ss l sz ->
  Permutation (map fst (firstn sz l)) (map fst (firstn sz l')) ->
  skipn sz l = skipn sz l' -> length l = length l' -> arr Nw Ss l' sz.
Proof.
  induction Ss as [|R Ss IH]; cbn; intros l sz l' H P Es L.
  - destruct H as [-> H]. split; [exact L|]. rewrite L in P at 2.
    rewrite !firstn_all in P. etransitivity; [symmetry; exact P|exact H].
  - destruct H as (a & r & tl & -> & -> & Pa & Pr & Hr & H).
    rewrite firstn_app, Nat.sub_diag, firstn_all in P. cbn in P. rewrite app_nil_r in P.
    rewrite skipn_app, skipn_all, Nat.sub_diag in Es. cbn in Es.
    exists (firstn (length a) l'), r, tl. rewrite firstn_length, <- L.
    assert (Hl : length a <= length (a ++ r ++ tl)) by (rewrite app_length; lia).
    assert (El : l' = firstn (length a) l' ++ r ++ tl)
      by (rewrite Es; symmetry; apply firstn_skipn).
    repeat split.
    + exact El.
    + lia.
    + etransitivity; [symmetry; exact P|exact Pa].
    + exact Pr.
    + exact Hr.
    + replace (Nat.min (length a) (length (a ++ r ++ tl))) with (length a) by lia.
      apply (IH _ _ _ H); [| |exact L].
      * rewrite El. rewrite !app_assoc, <- app_length.
        assert (E2 : length (a ++ r) = length (firstn (length a) l' ++ r))
          by (rewrite !app_length, firstn_length; lia).
        rewrite firstn_app, Nat.sub_diag, firstn_all. cbn. rewrite app_nil_r.
        rewrite E2. rewrite firstn_app, Nat.sub_diag, firstn_all. cbn. rewrite app_nil_r.
        rewrite !map_app. apply Permutation_app_tail. exact P.
      * rewrite El. rewrite !app_assoc, <- app_length.
        assert (E2 : length (a ++ r) = length (firstn (length a) l' ++ r))
          by (rewrite !app_length, firstn_length; lia).
        rewrite skipn_app, Nat.sub_diag, skipn_all. cbn.
        rewrite E2. rewrite skipn_app, Nat.sub_diag, skipn_all. reflexivity.
Qed.

Lemma firstn_exact {A} (a b : list A) n : n = length a -> firstn n (a ++ b) = a.
Proof. intros ->. rewrite firstn_app, Nat.sub_diag, firstn_all. apply app_nil_r. Qed.
Lemma skipn_exact {A} (a b : list A) n : n = length a -> skipn n (a ++ b) = b.
Proof. intros ->. rewrite skipn_app, Nat.sub_diag, skipn_all. reflexivity. Qed.
Lemma filter_split_length {A} (f : A -> bool) l :
  length (filter (fun x => negb (f x)) l) + length (filter f l) = length l.
Proof. induction l as [|x l IH]; cbn; [reflexivity|]. destruct (f x); cbn; lia. Qed.

(** removing one more level: the result of [rem_loop] *)
Lemma arr_remove Nw Ss R l sz :
  arr Nw Ss l sz -> (forall en, In en (firstn sz l) -> snd en = Z.of_nat (length Ss)) ->
  forall l' k, rem_loop R (Z.of_nat (length Ss) + 1) sz 0 l 0 = (l', k) ->
  k <= sz /\ arr Nw (R :: Ss) l' (sz - k) /\
  (forall en, In en (firstn (sz - k) l') -> snd en = (Z.of_nat (length Ss) + 1)%Z).
Proof.
  intros H Hf l' k E.
  destruct (arr_content _ _ _ _ H) as [Pc Hl].
  destruct (rem_loop_spec R (Z.of_nat (length Ss) + 1)%Z sz [] (firstn sz l) (skipn sz l) 0)
    as (kp & rv & E' & Pk & Pr); [rewrite firstn_length; lia|].
  cbn [app length] in E'. rewrite firstn_skipn, E in E'. injection E' as -> ->. cbn [Nat.add].
  assert (Lk : length kp + length rv = sz).
  { apply Permutation_length in Pk. apply Permutation_length in Pr.
    rewrite map_length in Pk. rewrite Pk, Pr, (filter_split_length (fun en => R (fst en))), firstn_length. lia. }
  assert (Ek : sz - length rv = length kp) by lia. rewrite Ek.
  split; [lia|]. split.
  - cbn [arr]. exists kp, rv, (skipn sz l). repeat split.
    + etransitivity; [apply Permutation_map, Pk|]. rewrite map_map. cbn [fst].
      rewrite (filter_map_fst (fun e => negb (R e))). apply Permutation_filter_neg. exact Pc.
    + etransitivity; [apply Permutation_map, Pr|].
      rewrite (filter_map_fst R). apply Permutation_filter_neg. exact Pc.
    + intros en Hin. apply Hf. pose proof (Permutation_in _ Pr Hin) as Hi.
      apply filter_In in Hi. apply Hi.
    + rewrite Lk. apply (arr_perm _ _ _ _ _ H).
      * rewrite (app_assoc kp rv), (firstn_exact (kp ++ rv)) by (rewrite app_length; lia).
        rewrite map_app. symmetry.
        etransitivity; [apply Permutation_app; apply Permutation_map; [exact Pk|exact Pr]|].
        rewrite map_map. cbn [fst]. clear.
        induction (firstn sz l) as [|x q IH]; cbn; [constructor|].
        destruct (R (fst x)); cbn.
        -- etransitivity; [symmetry; apply Permutation_middle|]. constructor. exact IH.
        -- constructor. exact IH.
      * rewrite (app_assoc kp rv), (skipn_exact (kp ++ rv)) by (rewrite app_length; lia). reflexivity.
      * rewrite !app_length, skipn_length. lia.
  - intros en Hin. rewrite firstn_app, Nat.sub_diag, firstn_all in Hin. cbn in Hin.
    rewrite app_nil_r in Hin. pose proof (Permutation_in _ Pk Hin) as Hi.
    apply in_map_iff in Hi. destruct Hi as (y & <- & _). reflexivity.
Qed.
