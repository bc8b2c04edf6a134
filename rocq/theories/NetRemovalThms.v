(** Proofs about the removal of single-pin and identical nets. *)
From Coq Require Import List Arith ZArith Lia Bool Permutation Sorted.
From Verif Require Import Base INARep INAOps2 DynGain NetRemoval.
Import ListNotations.
Local Open Scope nat_scope.

Section Round.
Variables (pins : nat -> list nat) (hash : nat -> Z).

Lemma same_upto_eq l1 : forall l2, length l1 = length l2 -> (same_upto l1 l2 = true <-> l1 = l2).
Proof.
  induction l1 as [|x l1 IH]; intros [|y l2] E; cbn in *; try discriminate; [tauto|].
  injection E as E. rewrite andb_true_iff, (IH l2 E), Nat.eqb_eq. split; [intros [-> ->]; reflexivity|intros H; injection H; auto].
Qed.
Lemma parallel_iff l r : parallel_nets pins l r = true <-> pins l = pins r.
Proof.
  unfold parallel_nets. rewrite andb_true_iff, Nat.eqb_eq. split.
  - intros [E H]. apply same_upto_eq; assumption.
  - intros E. split; [rewrite E; reflexivity|]. apply same_upto_eq; [rewrite E; reflexivity|exact E].
Qed.

Definition mtch (l r : nat) : bool := (hash l =? hash r)%Z && parallel_nets pins l r.
Lemma mtch_iff l r : mtch l r = true <-> hash l = hash r /\ pins l = pins r.
Proof. unfold mtch. rewrite andb_true_iff, Z.eqb_eq, parallel_iff. reflexivity. Qed.

Definition vals (l : list (nat * bool)) : list nat := map fst (filter snd l).
Definition hle (x y : nat) : Prop := (hash x <= hash y)%Z.

Lemma vals_in x l : In x (vals l) -> In x (map fst l).
Proof. unfold vals. intros H. apply in_map_iff in H. destruct H as (y & E & Hy). apply filter_In in Hy. rewrite <- E. apply in_map. apply Hy. Qed.
Lemma vals_nd l : NoDup (map fst l) -> NoDup (vals l).
Proof.
  induction l as [|[x v] l IH]; intros ND; [constructor|]. cbn in ND. apply NoDup_cons_iff in ND. destruct ND as [N ND].
  unfold vals. cbn. destruct v; cbn; [|exact (IH ND)]. constructor; [|exact (IH ND)]. intros X. apply N. exact (vals_in _ _ X).
Qed.

Lemma inner_spec W lhs : forall l acc a l2 rm, StronglySorted hle (map fst l) -> (forall x, In x (map fst l) -> hle lhs x) ->
  inner pins hash W lhs acc l = (a, l2, rm) ->
  map fst l2 = map fst l /\ rm = filter (mtch lhs) (vals l) /\ vals l2 = filter (fun x => negb (mtch lhs x)) (vals l) /\
  a = (acc + sumZ W rm)%Z.
Proof.
  induction l as [|[r v] l IH]; intros acc a l2 rm Hs Hl E.
  - cbn in E. injection E as <- <- <-. cbn. repeat split. lia.
  - cbn in Hs, Hl. inversion Hs as [|r' l' Hs' Hf]; subst r' l'. cbn [inner] in E.
    assert (Hl' : forall x, In x (map fst l) -> hle lhs x) by (intros x Hx; apply Hl; right; exact Hx).
    assert (Em : v && (hash lhs =? hash r)%Z && parallel_nets pins lhs r = v && mtch lhs r) by (rewrite <- andb_assoc; reflexivity).
    rewrite Em in E. destruct (v && mtch lhs r) eqn:Ev.
    + destruct (inner pins hash W lhs (acc + W r) l) as [[a1 l21] rm1] eqn:E1. injection E as <- <- <-.
      destruct (IH _ _ _ _ Hs' Hl' E1) as (A1 & A2 & A3 & A4). apply andb_true_iff in Ev. destruct Ev as [-> Er].
      unfold vals in *. cbn. rewrite Er. cbn. rewrite A1, A2, A3. repeat split; auto. rewrite A4, A2. lia.
    + destruct (Z.eqb_spec (hash lhs) (hash r)) as [Eh|Eh]; cbn [negb] in E.
      * destruct (inner pins hash W lhs acc l) as [[a1 l21] rm1] eqn:E1. injection E as <- <- <-.
        destruct (IH _ _ _ _ Hs' Hl' E1) as (A1 & A2 & A3 & A4).
        unfold vals in *. cbn. rewrite A1. split; [reflexivity|]. destruct v; cbn in *; [|auto]. rewrite Ev. cbn. rewrite A3. auto.
      * injection E as <- <- <-. split; [reflexivity|].
        assert (Hn : forall x, In x (vals ((r, v) :: l)) -> mtch lhs x = false).
        { intros x Hx. apply vals_in in Hx. cbn in Hx. destruct (mtch lhs x) eqn:Ex; [|reflexivity]. apply mtch_iff in Ex. destruct Ex as [Ex _].
          pose proof (Hl r (or_introl eq_refl)) as H1. unfold hle in *. destruct Hx as [<-|Hx]; [contradiction|].
          rewrite Forall_forall in Hf. specialize (Hf x Hx). lia. }
        assert (F1 : filter (mtch lhs) (vals ((r, v) :: l)) = []).
        { revert Hn. generalize (vals ((r, v) :: l)). intros q. induction q as [|z q IHq]; intros Hn; [reflexivity|]. cbn.
          rewrite (Hn z (or_introl eq_refl)). apply IHq. intros y Hy. apply Hn. right. exact Hy. }
        assert (F2 : filter (fun x => negb (mtch lhs x)) (vals ((r, v) :: l)) = vals ((r, v) :: l)).
        { revert Hn. generalize (vals ((r, v) :: l)). intros q. induction q as [|z q IHq]; intros Hn; [reflexivity|]. cbn.
          rewrite (Hn z (or_introl eq_refl)). cbn. f_equal. apply IHq. intros y Hy. apply Hn. right. exact Hy. }
        rewrite F1, F2. repeat split. cbn. lia.
Qed.

(** What a bucket, or several, do to the weights *)
Record rsp (X : list nat) (W W' : nat -> Z) (rms : list (nat * nat)) : Prop := {
  r_nd : NoDup (map fst rms);
  r_in : forall r h, In (r, h) rms -> In r X /\ In h X /\ ~ In h (map fst rms) /\ pins r = pins h;
  r_w : forall h, W' h = Z.add (W h) (sumZ (fun x => if snd x =? h then W (fst x) else 0%Z) rms);
  r_all : forall h1 h2, In h1 X -> In h2 X -> ~ In h1 (map fst rms) -> ~ In h2 (map fst rms) ->
            hash h1 = hash h2 -> pins h1 = pins h2 -> h1 = h2 }.

Lemma rsp_cons h V W rms1 rms2 W' : NoDup (h :: V) ->
  rms1 = map (fun r => (r, h)) (filter (mtch h) V) ->
  rsp (filter (fun x => negb (mtch h x)) V) (upd W h (W h + sumZ W (filter (mtch h) V))%Z) W' rms2 ->
  rsp (h :: V) W W' (rms1 ++ rms2).
Proof.
  intros ND -> [R1 R2 R3 R4]. apply NoDup_cons_iff in ND. destruct ND as [Nh ND].
  assert (F1 : map fst (map (fun r => (r, h)) (filter (mtch h) V)) = filter (mtch h) V) by (rewrite map_map; apply map_id).
  assert (In2 : forall r, In r (map fst rms2) -> In r V /\ mtch h r = false).
  { intros r Hr. apply in_map_iff in Hr. destruct Hr as ([r' g] & <- & Hr). destruct (R2 _ _ Hr) as [A _].
    apply filter_In in A. destruct A as [A B]. split; [exact A|]. cbn. destruct (mtch h r'); [discriminate|reflexivity]. }
  assert (Nh2 : ~ In h (map fst rms2)) by (intros X; apply In2 in X; tauto).
  constructor.
  - rewrite map_app, F1. apply NoDup_app_i; [apply NoDup_filter; exact ND|exact R1|].
    intros r A B. apply filter_In in A. apply In2 in B. destruct A, B. congruence.
  - intros r g Hr. rewrite map_app, F1. apply in_app_or in Hr. destruct Hr as [Hr|Hr].
    + apply in_map_iff in Hr. destruct Hr as (r' & E & Hr). injection E as -> <-. apply filter_In in Hr. destruct Hr as [Hr Em].
      split; [right; exact Hr|]. split; [left; reflexivity|]. split.
      * intros X. apply in_app_or in X. destruct X as [X|X]; [apply filter_In in X; apply Nh; apply X|contradiction].
      * apply mtch_iff in Em. symmetry. apply Em.
    + destruct (R2 _ _ Hr) as (A & B & C & D). apply filter_In in A. apply filter_In in B. destruct A as [A _], B as [B Bm].
      split; [right; exact A|]. split; [right; exact B|]. split; [|exact D].
      intros X. apply in_app_or in X. destruct X as [X|X]; [|contradiction]. apply filter_In in X. destruct X as [_ X]. rewrite X in Bm. discriminate.
  - intros g. rewrite R3, sumZ_app, sumZ_map. cbn [fst snd].
    assert (E2 : sumZ (fun x => if snd x =? g then upd W h (W h + sumZ W (filter (mtch h) V))%Z (fst x) else 0%Z) rms2
       = sumZ (fun x => if snd x =? g then W (fst x) else 0%Z) rms2).
    { apply sumZ_ext. intros [r q] Hr. cbn. unfold upd. destruct (Nat.eqb_spec r h) as [->|N]; [|reflexivity].
      exfalso. apply Nh2. apply in_map_iff. exists (h, q). auto. }
    rewrite E2. unfold upd. destruct (Nat.eqb_spec g h) as [->|N].
    + rewrite (sumZ_ext (fun x => if h =? h then W x else 0%Z) W) by (intros x _; rewrite Nat.eqb_refl; reflexivity). lia.
    + rewrite (sumZ_zero (fun x => if h =? g then W x else 0%Z)); [lia|]. intros x _. destruct (Nat.eqb_spec h g); [congruence|reflexivity].
  - intros h1 h2 H1 H2 N1 N2 Eh Ep. rewrite map_app, F1, in_app_iff in N1, N2.
    assert (Hx : forall x, In x V -> hash h = hash x -> pins h = pins x -> In x (filter (mtch h) V)).
    { intros x Hx E1 E2. apply filter_In. split; [exact Hx|]. apply mtch_iff. auto. }
    destruct H1 as [<-|H1], H2 as [<-|H2]; [reflexivity| | |].
    + exfalso. apply N2. left. apply Hx; auto.
    + exfalso. apply N1. left. apply Hx; auto.
    + assert (Y : forall x, In x V -> ~ (In x (filter (mtch h) V) \/ In x (map fst rms2)) -> In x (filter (fun x => negb (mtch h x)) V)).
      { intros x Hi N. apply filter_In. split; [exact Hi|]. destruct (mtch h x) eqn:E; [|reflexivity]. exfalso. apply N. left. apply filter_In. auto. }
      apply R4; auto.
Qed.

Lemma outer_spec n : forall W l W' rms, length l <= n -> NoDup (map fst l) -> StronglySorted hle (map fst l) ->
  outer pins hash n W l = (W', rms) -> rsp (vals l) W W' rms.
Proof.
  induction n as [|n IH]; intros W l W' rms Ln ND Hs E.
  - destruct l as [|x l]; [|cbn in Ln; lia]. cbn in E. injection E as <- <-.
    constructor; [constructor|intros r h []|intros h; cbn; lia|intros h1 h2 []].
  - destruct l as [|[h v] l].
    + cbn in E. injection E as <- <-. constructor; [constructor|intros r h []|intros h; cbn; lia|intros h1 h2 []].
    + cbn in ND, Hs, Ln. inversion Hs as [|x' l' Hs' Hf]; subst x' l'. apply NoDup_cons_iff in ND as ND'. destruct ND' as [Nh ND'].
      cbn [outer] in E. destruct v.
      * destruct (inner pins hash W h (W h) l) as [[a l2] rm] eqn:E1.
        destruct (inner_spec W h l _ _ _ _ Hs' ltac:(intros x Hx; rewrite Forall_forall in Hf; exact (Hf x Hx)) E1) as (A1 & A2 & A3 & A4).
        destruct (outer pins hash n (upd W h a) l2) as [W2 rms2] eqn:E2. injection E as <- <-.
        assert (R2 : rsp (vals l2) (upd W h a) W2 rms2).
        { apply (IH _ l2); [|rewrite A1; exact ND'|rewrite A1; exact Hs'|exact E2].
          rewrite <- (map_length fst), A1, map_length. lia. }
        unfold vals. cbn [filter snd map fst]. fold (vals l). apply rsp_cons.
        -- constructor; [intros X; apply Nh; exact (vals_in _ _ X)|exact (vals_nd _ ND')].
        -- rewrite A2. reflexivity.
        -- rewrite A3, A4, A2 in R2. exact R2.
      * unfold vals. cbn [filter snd]. fold (vals l). apply (IH W l); auto. lia.
Qed.

Lemma before_hle B : StronglySorted (before pins hash) B -> StronglySorted hle B.
Proof.
  induction B as [|x B IH]; intros H; [constructor|]. inversion H as [|x' l' H1 H2]; subst. constructor; [exact (IH H1)|].
  rewrite Forall_forall in *. intros y Hy. specialize (H2 y Hy). unfold before, hle in *. lia.
Qed.
Lemma bucket_spec W B W' rms : NoDup B -> StronglySorted (before pins hash) B -> bucket_run pins hash W B = (W', rms) -> rsp B W W' rms.
Proof.
  intros ND Hs E. unfold bucket_run in E.
  assert (F : map fst (map (fun h => (h, true)) B) = B) by (rewrite map_map; apply map_id).
  assert (V : vals (map (fun h => (h, true)) B) = B).
  { unfold vals. rewrite <- F at 2. f_equal. clear. induction B as [|x B IH]; [reflexivity|]. cbn. rewrite IH. reflexivity. }
  rewrite <- V. apply (outer_spec (length B)); [rewrite map_length; lia|rewrite F; exact ND|rewrite F; apply before_hle; exact Hs|exact E].
Qed.

Lemma rsp_app X1 X2 W W1 W2 r1 r2 : NoDup (X1 ++ X2) -> (forall x y, In x X1 -> In y X2 -> hash x <> hash y) ->
  rsp X1 W W1 r1 -> rsp X2 W1 W2 r2 -> rsp (X1 ++ X2) W W2 (r1 ++ r2).
Proof.
  intros ND Hh [A1 A2 A3 A4] [B1 B2 B3 B4].
  assert (D : forall x, In x X1 -> In x X2 -> False) by (intros x; apply NoDup_app_disj; exact ND).
  assert (F1 : forall x, In x (map fst r1) -> In x X1).
  { intros x H. apply in_map_iff in H. destruct H as ([r h] & <- & H). apply (A2 _ _ H). }
  assert (F2 : forall x, In x (map fst r2) -> In x X2).
  { intros x H. apply in_map_iff in H. destruct H as ([r h] & <- & H). apply (B2 _ _ H). }
  constructor.
  - rewrite map_app. apply NoDup_app_i; auto. intros x H1 H2. exact (D x (F1 x H1) (F2 x H2)).
  - intros r h H. rewrite map_app, !in_app_iff. apply in_app_or in H. destruct H as [H|H].
    + destruct (A2 _ _ H) as (Q1 & Q2 & Q3 & Q4). repeat split; auto. intros [X|X]; [contradiction|exact (D h Q2 (F2 h X))].
    + destruct (B2 _ _ H) as (Q1 & Q2 & Q3 & Q4). repeat split; auto. intros [X|X]; [exact (D h (F1 h X) Q2)|contradiction].
  - intros h. rewrite B3, A3, sumZ_app.
    rewrite (sumZ_ext (fun x => if snd x =? h then W1 (fst x) else 0%Z) (fun x => if snd x =? h then W (fst x) else 0%Z) r2); [lia|].
    intros [r g] Hr. cbn. destruct (g =? h); [|reflexivity]. rewrite A3.
    rewrite sumZ_zero; [lia|]. intros [r' g'] Hr'. cbn. destruct (Nat.eqb_spec g' r) as [->|N]; [|reflexivity].
    exfalso. destruct (A2 _ _ Hr') as (_ & Q & _). destruct (B2 _ _ Hr) as (Q' & _). exact (D _ Q Q').
  - intros h1 h2 H1 H2 N1 N2 Eh Ep. rewrite map_app, in_app_iff in N1, N2.
    apply in_app_or in H1. apply in_app_or in H2. destruct H1 as [H1|H1], H2 as [H2|H2].
    + apply A4; auto.
    + exfalso. exact (Hh _ _ H1 H2 Eh).
    + exfalso. exact (Hh _ _ H2 H1 (eq_sym Eh)).
    + apply B4; auto.
Qed.

Fixpoint sep (Bs : list (list nat)) : Prop :=
  match Bs with [] => True | B :: Bs' => (forall x y, In x B -> In y (concat Bs') -> hash x <> hash y) /\ sep Bs' end.
Lemma buckets_spec Bs : forall W W' rms, NoDup (concat Bs) -> (forall B, In B Bs -> StronglySorted (before pins hash) B) -> sep Bs ->
  buckets_run pins hash W Bs = (W', rms) -> rsp (concat Bs) W W' rms.
Proof.
  induction Bs as [|B Bs IH]; intros W W' rms ND Hs Hsep E.
  - cbn in E. injection E as <- <-. constructor; [constructor|intros r h []|intros h; cbn; lia|intros h1 h2 []].
  - cbn [buckets_run concat sep] in *. destruct Hsep as [H1 H2].
    destruct (bucket_run pins hash W B) as [W1 r1] eqn:E1. destruct (buckets_run pins hash W1 Bs) as [W2 r2] eqn:E2. injection E as <- <-.
    apply rsp_app with (W1 := W1); auto.
    + apply bucket_spec; auto. exact (NoDup_app_remove_r _ _ ND). apply Hs. left. reflexivity.
    + apply IH; auto. exact (NoDup_app_remove_l _ _ ND). intros B' HB'. apply Hs. right. exact HB'.
Qed.

(** The result of removeSinglePinAndParallelHyperedges *)
Lemma remove_rsp bucket nb en W en' W' L : (forall z, bucket z < nb) -> NoDup en -> remove_nets pins hash bucket nb en W en' W' L ->
  exists rms, rsp (filter (fun h => 1 <? length (pins h)) en) W W' rms /\
    Permutation L (map (fun h => (h, None)) (filter (fun h => negb (1 <? length (pins h))) en) ++ map (fun rh => (fst rh, Some (snd rh))) rms) /\
    en' = filter (fun h => negb (existsb (fun x => fst x =? h) L)) en.
Proof.
  intros Hb ND [order Bs W1 rms L1 en1 Po Ln HB E PL Een]. exists rms. split; [|auto].
  set (X := filter (fun h => 1 <? length (pins h)) en).
  assert (NDo : NoDup order) by (eapply Permutation_NoDup; [symmetry; exact Po|apply seq_NoDup]).
  assert (Lo : length order = nb) by (rewrite (Permutation_length Po), seq_length; reflexivity).
  assert (HB' : forall i B, nth_error Bs i = Some B -> forall x, In x B <-> In x X /\ bucket (hash x) = nth i order 0).
  { intros i B Hi x. destruct (HB i B Hi) as [P _]. unfold X. rewrite filter_In. split.
    - intros Hx. apply (Permutation_in _ P) in Hx. apply filter_In in Hx. destruct Hx as [Hx Hc]. apply andb_true_iff in Hc.
      destruct Hc as [Hc1 Hc2]. apply Nat.eqb_eq in Hc2. auto.
    - intros [[Hx Hc1] Hc2]. apply (Permutation_in _ (Permutation_sym P)). apply filter_In. rewrite Hc1, Hc2, Nat.eqb_refl. auto. }
  assert (Ninj : forall i j B B', nth_error Bs i = Some B -> nth_error Bs j = Some B' -> nth i order 0 = nth j order 0 -> i = j).
  { intros i j B B' Hi Hj En. apply (proj1 (NoDup_nth order 0) NDo); [| |exact En]; rewrite Lo, <- Ln; apply nth_error_Some; congruence. }
  assert (Hall : forall x, In x (concat Bs) <-> In x X).
  { intros x. rewrite in_concat. split.
    - intros (B & HBi & Hx). apply In_nth_error in HBi. destruct HBi as (i & Hi). apply (HB' i B Hi) in Hx. apply Hx.
    - intros Hx. assert (Hi : In (bucket (hash x)) order) by (apply (Permutation_in _ (Permutation_sym Po)); apply in_seq; specialize (Hb (hash x)); lia).
      apply In_nth with (d := 0) in Hi. destruct Hi as (i & Hi & Ei). destruct (nth_error Bs i) as [B|] eqn:EB.
      + exists B. split; [exact (nth_error_In _ _ EB)|]. apply (HB' i B EB). auto.
      + apply nth_error_None in EB. lia. }
  assert (Gen : forall Cs, (forall i j C C' x y, nth_error Cs i = Some C -> nth_error Cs j = Some C' -> In x C -> In y C' -> hash x = hash y -> i = j) ->
      (forall C, In C Cs -> NoDup C) -> NoDup (concat Cs) /\ sep Cs).
  { induction Cs as [|C Cs IH]; intros H1 H2; [split; [constructor|exact I]|]. cbn [concat sep].
    assert (Q : forall x y, In x C -> In y (concat Cs) -> hash x <> hash y).
    { intros x y Hx Hy Eh. apply in_concat in Hy. destruct Hy as (C' & HC & Hy). apply In_nth_error in HC. destruct HC as (j & Hj).
      pose proof (H1 0 (S j) C C' x y eq_refl Hj Hx Hy Eh). discriminate. }
    destruct IH as [I1 I2].
    - intros i j A A' x y Hi Hj Hx Hy Eh. pose proof (H1 (S i) (S j) A A' x y Hi Hj Hx Hy Eh). lia.
    - intros A HA. apply H2. right. exact HA.
    - split; [|split; assumption]. apply NoDup_app_i; [apply H2; left; reflexivity|exact I1|].
      intros x Hx Hy. exact (Q x x Hx Hy eq_refl). }
  destruct (Gen Bs) as [NDc Hsep].
  - intros i j B B' x y Hi Hj Hx Hy Eh. apply (Ninj i j B B' Hi Hj). apply (HB' i B Hi) in Hx. apply (HB' j B' Hj) in Hy.
    destruct Hx as [_ <-], Hy as [_ <-]. rewrite Eh. reflexivity.
  - intros B HBi. apply In_nth_error in HBi. destruct HBi as (i & Hi). destruct (HB i B Hi) as [P _].
    eapply Permutation_NoDup; [symmetry; exact P|]. apply NoDup_filter. exact ND.
  - assert (R : rsp (concat Bs) W W1 rms).
    { apply buckets_spec; auto. intros B HBi. apply In_nth_error in HBi. destruct HBi as (i & Hi). apply (HB i B Hi). }
    destruct R as [R1 R2 R3 R4]. constructor; auto.
    + intros r h H. destruct (R2 r h H) as (A & B & C & D). rewrite <- !Hall. auto.
    + intros h1 h2 H1 H2. rewrite <- Hall in H1, H2. auto.
Qed.
End Round.
