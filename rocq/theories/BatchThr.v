(** The invariant of one thread of createBatchUncontractionHierarchyForVersion,
    whatever batch index (at least the required one) it is given. *)
From Coq Require Import List Arith Lia Bool Permutation Sorted.
From Verif Require Import Base Batch BatchSort INARep INAOps2.
Import ListNotations.
Local Open Scope nat_scope.

Lemma pick_perm {A} : forall (l : list A) n x r, pick n l = Some (x, r) -> Permutation l (x :: r).
Proof.
  induction l as [|y l IH]; intros n x r H; cbn [pick] in H; [discriminate|]. destruct n as [|n].
  - injection H as <- <-. reflexivity.
  - destruct (pick n l) as [[z q]|] eqn:E; [|discriminate]. injection H as <- <-.
    rewrite (IH _ _ _ E). apply perm_swap.
Qed.

Lemma assign_v u i g : forall p, map a_v (assign_from u i p g) = g.
Proof. induction g as [|v g IH]; intros p; cbn; [reflexivity|]. rewrite IH. reflexivity. Qed.
Lemma assign_in u i g a : forall p, In a (assign_from u i p g) -> a_u a = u /\ a_b a = i /\ In (a_v a) g.
Proof.
  induction g as [|v g IH]; intros p H; cbn in H; [destruct H|]. destruct H as [<-|H]; cbn; [auto|].
  destruct (IH _ H) as (A & B & C). auto.
Qed.

Lemma nodup_map_inj {A B} (f : A -> B) l a b : NoDup (map f l) -> In a l -> In b l -> f a = f b -> a = b.
Proof.
  induction l as [|x l IH]; intros ND Ha Hb E; [destruct Ha|]. cbn in ND. apply NoDup_cons_iff in ND. destruct ND as [N1 N2].
  destruct Ha as [->|Ha], Hb as [->|Hb]; auto.
  - exfalso. apply N1. rewrite E. apply in_map. exact Hb.
  - exfalso. apply N1. rewrite <- E. apply in_map. exact Ha.
Qed.

Definition pendl (t : ctree) (k : nat) (q : list (list nat)) : list nat := flat_map (takev t k) q.

Record item_ok (t : ctree) (k : nat) (l : list nat) : Prop := {
  it_sorted : StronglySorted (bef t) l;
  it_head : exists v r, l = v :: r /\ ct_ver t v = Some k;
  it_par : forall x y, In x l -> In y l -> ct_parent t x = ct_parent t y }.

(** the node whose children are in the item *)
Definition hp (t : ctree) (l : list nat) : nat := ct_parent t (hd 0 l).

Record tinv (t : ctree) (k : nat) (rs : list nat) (q nq : list (list nat)) (cur : nat)
    (asg : list asn) (u : nat) (g : list nat) : Prop := {
  v_item : forall l, In l (q ++ nq) -> item_ok t k l;
  v_nd : NoDup (map a_v asg ++ g ++ pendl t k (q ++ nq));
  v_all : forall p, In p rs \/ In p (map a_v asg ++ g) -> forall v, v < ct_n t -> ct_parent t v = p ->
      v <> p -> ct_ver t v = Some k -> In v (map a_v asg ++ g ++ pendl t k (q ++ nq));
  v_ok : forall x, In x (map a_v asg ++ g ++ pendl t k (q ++ nq)) ->
      x < ct_n t /\ ct_parent t x <> x /\ ct_ver t x = Some k /\
      (In (ct_parent t x) rs \/ In (ct_parent t x) (map a_v asg ++ g));
  v_lev : forall x, In x (g ++ pendl t k q) ->
      In (ct_parent t x) rs \/ exists a, In a asg /\ a_v a = ct_parent t x /\ a_b a < cur;
  v_asg : forall a, In a asg -> a_u a = ct_parent t (a_v a) /\ a_b a <= cur;
  v_sib : forall a c, In a asg -> In c asg -> ct_parent t (a_v a) = ct_parent t (a_v c) ->
      a_b a < a_b c -> ct_end t (a_v c) < ct_start t (a_v a);
  v_par : forall a c, In a asg -> In c asg -> ct_parent t (a_v c) = a_v a -> a_b a < a_b c;
  v_sep : forall d x, In d (map a_v asg ++ g) -> In x (pendl t k (q ++ nq)) ->
      ct_parent t d = ct_parent t x -> ct_end t x < ct_start t d;
  v_sepg : forall d x, In d (map a_v asg) -> In x g ->
      ct_parent t d = ct_parent t x -> ct_end t x < ct_start t d;
  v_gu : forall x, In x g -> ct_parent t x = u;
  v_dist : NoDup (map (hp t) (q ++ nq));
  v_rp : forall c, In c asg -> In (ct_parent t (a_v c)) rs \/ In (ct_parent t (a_v c)) (map a_v asg) }.

Lemma pendl_app t k a b : pendl t k (a ++ b) = pendl t k a ++ pendl t k b.
Proof. apply flat_map_app. Qed.

Lemma item_pend t k l v r : l = v :: r -> ct_ver t v = Some k -> exists r', takev t k l = v :: r'.
Proof. intros -> E. cbn [takev]. assert (X : veq (ct_ver t v) (Some k) = true) by (apply veq_eq; exact E). rewrite X. eauto. Qed.

Lemma push_item t k u l : In l (push_pq t k u) -> item_ok t k l.
Proof.
  unfold push_pq. pose proof (skipv_suffix t k (childs t u)) as [p Ep].
  destruct (skipv t k (childs t u)) as [|v r] eqn:E; [intros []|]. intros [<-|[]]. split.
  - pose proof (childs_sorted t u) as S. rewrite Ep in S. apply ssorted_app in S. exact S.
  - exists v, r. split; [reflexivity|]. eapply skipv_head; eauto.
  - assert (X : forall x, In x (v :: r) -> ct_parent t x = u).
    { intros x Hx. assert (Hc : In x (childs t u)) by (rewrite Ep; apply in_or_app; right; exact Hx).
      apply childs_in in Hc. apply Hc. }
    intros x y Hx Hy. rewrite !X by auto. reflexivity.
Qed.

Lemma push_hp t k g : map (hp t) (flat_map (push_pq t k) g)
  = filter (fun u => match skipv t k (childs t u) with [] => false | _ => true end) g.
Proof.
  induction g as [|x g IH]; cbn [flat_map filter]; [reflexivity|]. rewrite map_app, IH.
  unfold push_pq. destruct (skipv t k (childs t x)) as [|v l] eqn:E; cbn; [reflexivity|]. f_equal.
  pose proof (skipv_suffix t k (childs t x)) as [p Ep]. rewrite E in Ep.
  assert (Hc : In v (childs t x)) by (rewrite Ep; apply in_or_app; right; left; reflexivity).
  apply childs_in in Hc. apply Hc.
Qed.

Definition CH (t : ctree) (k : nat) (g : list nat) : list nat :=
  flat_map (fun x => filter (isk t k) (childs t x)) g.

Lemma pendl_push t k g : pendl t k (flat_map (push_pq t k) g) = CH t k g.
Proof.
  unfold CH. induction g as [|x g IH]; cbn [flat_map]; [reflexivity|].
  rewrite pendl_app, IH. f_equal. apply push_takev.
Qed.
Lemma CH_in t k g x : In x (CH t k g) <->
  x < ct_n t /\ In (ct_parent t x) g /\ ct_parent t x <> x /\ ct_ver t x = Some k.
Proof.
  unfold CH. rewrite in_flat_map. split.
  - intros (p & Hp & Hx). apply filter_In in Hx. destruct Hx as [Hx Ek]. apply childs_in in Hx.
    destruct Hx as (A & <- & B). unfold isk in Ek. apply veq_eq in Ek. auto.
  - intros (A & B & C & D). exists (ct_parent t x). split; [exact B|]. apply filter_In. split.
    + apply childs_in. auto.
    + unfold isk. apply veq_eq. exact D.
Qed.
Lemma CH_nodup t k g : NoDup g -> NoDup (CH t k g).
Proof.
  unfold CH. induction g as [|x g IH]; intros ND; cbn [flat_map]; [constructor|].
  apply NoDup_cons_iff in ND. destruct ND as [Hx ND]. apply NoDup_app_i.
  - apply NoDup_filter, childs_nodup.
  - apply IH. exact ND.
  - intros y Hy Hy2. apply filter_In in Hy. destruct Hy as [Hy _]. apply childs_in in Hy.
    fold (CH t k g) in Hy2. apply CH_in in Hy2. destruct Hy as (_ & E & _). rewrite E in Hy2. tauto.
Qed.

Section Thr.
Variables (t : ctree) (k : nat) (rs : list nat).
Hypothesis Hrs : forall r, In r rs -> ct_ver t r <> Some k.

Lemma tinv_init : (forall r, In r rs -> r < ct_n t) -> NoDup rs ->
  tinv t k rs (flat_map (push_pq t k) rs) [] 0 [] 0 [].
Proof.
  intros Hn ND. split; cbn [map app]; rewrite ?app_nil_r, ?pendl_push.
  - intros l Hl. apply in_flat_map in Hl. destruct Hl as (u & _ & Hl). eapply push_item; eauto.
  - apply CH_nodup. exact ND.
  - intros p [Hp|[]] v Hv <- Hne Ek. apply CH_in. auto.
  - intros x Hx. apply CH_in in Hx. tauto.
  - intros x Hx. apply CH_in in Hx. tauto.
  - intros a [].
  - intros a c [].
  - intros a c [].
  - intros d x [].
  - intros d x [].
  - intros x [].
  - rewrite push_hp. apply NoDup_filter. exact ND.
  - intros c [].
Qed.

Lemma tinv_pop q nq cur asg u0 v l q' g r : tinv t k rs q nq cur asg u0 [] ->
  Permutation q ((v :: l) :: q') ->
  more t k (ct_start t v) (ct_end t v) l = (g, r) ->
  tinv t k rs (repush t k r ++ q') (nq ++ flat_map (push_pq t k) (v :: g)) cur asg (ct_parent t v) (v :: g).
Proof.
  intros I Pq E.
  assert (It : item_ok t k (v :: l)).
  { apply (v_item _ _ _ _ _ _ _ _ _ I). apply in_or_app. left.
    eapply Permutation_in; [symmetry; exact Pq|left; reflexivity]. }
  destruct It as [Is (v' & r' & Ev & Ek) Ip]. injection Ev as <- <-.
  destruct (group_spec t k v l g r Is Ek E) as (G1 & G2 & G3).
  assert (Pp : Permutation (pendl t k (q ++ nq)) ((v :: g) ++ takev t k r ++ pendl t k q' ++ pendl t k nq)).
  { rewrite pendl_app. rewrite (Permutation_flat_map (takev t k) Pq : Permutation (pendl t k q) _).
    cbn [flat_map]. rewrite G2. rewrite <- !app_assoc. reflexivity. }
  assert (Pn : pendl t k ((repush t k r ++ q') ++ nq ++ flat_map (push_pq t k) (v :: g))
             = takev t k r ++ pendl t k q' ++ pendl t k nq ++ CH t k (v :: g)).
  { rewrite !pendl_app, pendl_push, <- app_assoc. f_equal. apply repush_takev. }
  set (rest := takev t k r ++ pendl t k q' ++ pendl t k nq) in *.
  assert (Pn' : pendl t k ((repush t k r ++ q') ++ nq ++ flat_map (push_pq t k) (v :: g)) = rest ++ CH t k (v :: g)).
  { rewrite Pn. unfold rest. rewrite <- !app_assoc. reflexivity. }
  clear Pn. destruct I as [I1 I2 I3 I4 I5 I6 I7 I8 I9 I10 I11 I12 I13]. cbn [app] in I2, I3, I4, I5, I9.
  assert (En : map a_v asg ++ [] = map a_v asg) by apply app_nil_r. rewrite En in *.
  assert (Pold : Permutation (map a_v asg ++ pendl t k (q ++ nq)) (map a_v asg ++ (v :: g) ++ rest)).
  { apply Permutation_app_head. exact Pp. }
  assert (ND : NoDup (map a_v asg ++ (v :: g) ++ rest)) by (eapply Permutation_NoDup; eauto).
  assert (Hold : forall x, In x (map a_v asg ++ (v :: g) ++ rest) -> x < ct_n t /\ ct_parent t x <> x /\
     ct_ver t x = Some k /\ (In (ct_parent t x) rs \/ In (ct_parent t x) (map a_v asg))).
  { intros x Hx. apply (Permutation_in _ (Permutation_sym Pold)) in Hx. apply I4 in Hx.
    rewrite ?app_nil_r in Hx. exact Hx. }
  assert (Hgin : forall x, In x (v :: g) -> In x (map a_v asg ++ (v :: g) ++ rest)).
  { intros x Hx. apply in_or_app. right. apply in_or_app. left. exact Hx. }
  assert (Hgp : forall x, In x (v :: g) -> ct_parent t x = ct_parent t v).
  { intros x Hx. apply Ip; [|left; reflexivity]. rewrite G1. apply in_or_app. left. exact Hx. }
  assert (Hgnot : forall x y, In x (v :: g) -> In y (map a_v asg ++ (v :: g) ++ rest) -> ct_parent t y <> x).
  { intros x y Hx Hy Ex. destruct (Hold y Hy) as (_ & _ & _ & [Hr|Hr]); rewrite Ex in Hr.
    - apply (Hrs x Hr). apply Hold. auto.
    - apply (NoDup_app_disj _ _ ND x Hr). apply in_or_app. left. exact Hx. }
  assert (Hchp : forall x, In x (CH t k (v :: g)) -> In (ct_parent t x) (v :: g)).
  { intros x Hx. apply CH_in in Hx. tauto. }
  split; rewrite ?Pn'.
  - intros x Hx. rewrite <- app_assoc in Hx. apply in_app_or in Hx. destruct Hx as [Hx|Hx].
    + destruct r as [|w r]; cbn [repush] in Hx; [destruct Hx|].
      destruct (veq (ct_ver t w) (Some k)) eqn:Ew; [|destruct Hx]. destruct Hx as [<-|[]].
      split.
      * rewrite G1 in Is. apply ssorted_app in Is. exact Is.
      * exists w, r. split; [reflexivity|apply veq_eq; exact Ew].
      * intros a b Ha Hb. apply Ip; rewrite G1; apply in_or_app; auto.
    + rewrite app_assoc in Hx. apply in_app_or in Hx. destruct Hx as [Hx|Hx].
      * apply I1. apply in_app_or in Hx. apply in_or_app. destruct Hx as [Hx|Hx]; [left|right; exact Hx].
        eapply Permutation_in; [symmetry; exact Pq|right; exact Hx].
      * apply in_flat_map in Hx. destruct Hx as (y & _ & Hx). eapply push_item; eauto.
  - rewrite !app_assoc. rewrite <- (app_assoc _ _ rest). apply NoDup_app_i.
    + exact ND.
    + apply CH_nodup. apply NoDup_app_remove_l in ND. apply NoDup_app_remove_r in ND. exact ND.
    + intros x Hx Hc. apply (Hgnot _ x (Hchp x Hc) Hx). reflexivity.
  - intros p Hp x Hx Ep Hne Ekx.
    assert (Hcase : (In p rs \/ In p (map a_v asg)) \/ In p (v :: g)).
    { destruct Hp as [Hp|Hp]; [auto|]. apply in_app_or in Hp. destruct Hp; auto. }
    rewrite !app_assoc. rewrite <- (app_assoc _ _ rest). apply in_or_app. destruct Hcase as [Hp'|Hp'].
    + left. eapply Permutation_in; [exact Pold|]. apply (I3 p Hp' x Hx Ep Hne Ekx).
    + right. apply CH_in. rewrite Ep. auto.
  - intros x Hx. rewrite !app_assoc in Hx. rewrite <- (app_assoc _ _ rest) in Hx. apply in_app_or in Hx.
    destruct Hx as [Hx|Hx].
    + destruct (Hold x Hx) as (A & B & C & [D|D]); [|]; repeat split; auto. right. apply in_or_app. auto.
    + apply CH_in in Hx. destruct Hx as (A & B & C & D). repeat split; auto. right. apply in_or_app. auto.
  - intros x Hx. apply I5.
    eapply Permutation_in with (l := (v :: g) ++ takev t k r ++ pendl t k q').
    + rewrite (Permutation_flat_map (takev t k) Pq : Permutation (pendl t k q) _).
      cbn [flat_map]. rewrite G2, <- app_assoc. reflexivity.
    + rewrite pendl_app in Hx. unfold pendl in Hx at 1. rewrite repush_takev in Hx. exact Hx.
  - exact I6.
  - exact I7.
  - exact I8.
  - intros d x Hd Hx Ep. apply in_app_or in Hx. destruct Hx as [Hx|Hx].
    + apply in_app_or in Hd. destruct Hd as [Hd|Hd].
      * apply I9; [exact Hd| |exact Ep].
        eapply Permutation_in; [symmetry; exact Pp|]. apply in_or_app. right. exact Hx.
      * unfold rest in Hx. apply in_app_or in Hx. destruct Hx as [Hx|Hx]; [apply G3; assumption|].
        (* another item with the same parent: impossible, its parent's children are here *)
        exfalso. rewrite <- pendl_app in Hx. unfold pendl in Hx. apply in_flat_map in Hx.
        destruct Hx as (l2 & Hl2 & Hx). apply takev_in in Hx.
        pose proof (Permutation_NoDup (Permutation_map (hp t) (Permutation_app_tail nq Pq)) I12) as ND3.
        cbn in ND3. apply NoDup_cons_iff in ND3. apply ND3. apply in_map_iff. exists l2. split; [|exact Hl2].
        assert (It2 : item_ok t k l2).
        { apply I1. apply (Permutation_in _ (Permutation_sym (Permutation_app_tail nq Pq))). right. exact Hl2. }
        unfold hp. cbn [hd]. rewrite <- (Hgp d Hd), Ep. destruct It2 as [_ (w & rr & -> & _) Hpp]. cbn [hd].
        apply Hpp; [left; reflexivity|apply Hx].
    + exfalso. apply Hchp in Hx. rewrite <- Ep in Hx.
      assert (Hd' : In d (map a_v asg ++ (v :: g) ++ rest)).
      { rewrite app_assoc. apply in_or_app. left. exact Hd. }
      exact (Hgnot _ _ Hx Hd' eq_refl).
  - intros d x Hd Hx Ep. apply I9; [exact Hd| |exact Ep].
    eapply Permutation_in; [symmetry; exact Pp|]. apply in_or_app. left. exact Hx.
  - exact Hgp.
  - pose proof (Permutation_NoDup (Permutation_map (hp t) (Permutation_app_tail nq Pq)) I12) as ND3.
    cbn [map app] in ND3. rewrite !map_app, push_hp. rewrite map_app in ND3.
    assert (Hothers : forall x, In x (v :: g) -> In x (map (hp t) q' ++ map (hp t) nq) -> False).
    { intros x Hx Hi. rewrite <- map_app in Hi. apply in_map_iff in Hi. destruct Hi as (l2 & El & Hl2).
      assert (It2 : item_ok t k l2).
      { apply I1. apply (Permutation_in _ (Permutation_sym (Permutation_app_tail nq Pq))). right. exact Hl2. }
      destruct It2 as [_ (w & rr & -> & Ew) _]. unfold hp in El. cbn [hd] in El.
      apply (Hgnot x w Hx); [|exact El]. apply in_or_app. right. apply in_or_app. right. unfold rest.
      apply in_or_app. right. rewrite <- pendl_app. unfold pendl. apply in_flat_map.
      exists (w :: rr). split; [exact Hl2|]. destruct (item_pend t k (w :: rr) w rr eq_refl Ew) as [z ->]. left. reflexivity. }
    assert (Hv : hp t (v :: l) = ct_parent t v) by reflexivity. rewrite Hv in ND3.
    assert (Hvg : ~ In (ct_parent t v) (v :: g)).
    { intros X. apply (Hgnot _ v X); [|reflexivity]. apply Hgin. left. reflexivity. }
    assert (Hf : NoDup (filter (fun u => match skipv t k (childs t u) with [] => false | _ => true end) (v :: g))).
    { apply NoDup_filter. apply NoDup_app_remove_l in ND. apply NoDup_app_remove_r in ND. exact ND. }
    assert (Hq : NoDup ((map (hp t) q' ++ map (hp t) nq) ++ filter (fun u => match skipv t k (childs t u) with [] => false | _ => true end) (v :: g))).
    { apply NoDup_app_i; [apply NoDup_cons_iff in ND3; apply ND3|exact Hf|].
      intros x Hx Hx2. apply filter_In in Hx2. exact (Hothers x (proj1 Hx2) Hx). }
    rewrite <- app_assoc, (app_assoc (map (hp t) q')). 
    destruct r as [|w r]; cbn [repush map app]; [exact Hq|].
    destruct (veq (ct_ver t w) (Some k)) eqn:Ew; cbn [map app]; [|exact Hq].
    apply NoDup_cons_iff. split; [|exact Hq].
    assert (Ehp : hp t (w :: r) = ct_parent t v).
    { unfold hp. cbn [hd]. apply Ip; [|left; reflexivity]. rewrite G1. apply in_or_app. right. left. reflexivity. }
    rewrite Ehp. intros Hi. apply in_app_or in Hi. destruct Hi as [Hi|Hi].
    + apply NoDup_cons_iff in ND3. apply (proj1 ND3). exact Hi.
    + apply filter_In in Hi. apply Hvg. apply Hi.
  - exact I13.
Qed.

Lemma tinv_done q nq cur asg u g i p : tinv t k rs q nq cur asg u g -> cur <= i ->
  tinv t k rs q nq i (asg ++ assign_from u i p g) u [].
Proof.
  intros [I1 I2 I3 I4 I5 I6 I7 I8 I9 I10 I11 I12 I13] Hi.
  assert (Em : map a_v (asg ++ assign_from u i p g) = map a_v asg ++ g) by (rewrite map_app, assign_v; reflexivity).
  assert (NDa : NoDup (map a_v asg ++ g)) by (rewrite app_assoc in I2; apply (NoDup_app_remove_r _ _ I2)).
  split; rewrite ?Em; cbn [app]; rewrite ?app_nil_r, <- ?app_assoc; auto.
  - intros x Hx. destruct (I5 x) as [H|(a & A & B & C)]; [apply in_or_app; right; exact Hx|auto|].
    right. exists a. split; [apply in_or_app; left; exact A|]. split; [exact B|lia].
  - intros a Ha. apply in_app_or in Ha. destruct Ha as [Ha|Ha].
    + destruct (I6 a Ha). split; [assumption|lia].
    + destruct (assign_in _ _ _ _ _ Ha) as (A & B & C). split; [|lia]. rewrite A. symmetry. apply I11. exact C.
  - intros a c Ha Hc Ep Hb. apply in_app_or in Ha. apply in_app_or in Hc.
    destruct Ha as [Ha|Ha], Hc as [Hc|Hc].
    + auto.
    + destruct (assign_in _ _ _ _ _ Hc) as (A & B & C). apply I10; [apply in_map; exact Ha|exact C|exact Ep].
    + destruct (assign_in _ _ _ _ _ Ha) as (A & B & C). destruct (I6 c Hc). lia.
    + destruct (assign_in _ _ _ _ _ Ha) as (_ & B & _). destruct (assign_in _ _ _ _ _ Hc) as (_ & B' & _). lia.
  - intros a c Ha Hc Ep. apply in_app_or in Hc. destruct Hc as [Hc|Hc].
    + apply in_app_or in Ha. destruct Ha as [Ha|Ha]; [auto|].
      (* c was recorded before its parent: impossible *)
      exfalso. destruct (assign_in _ _ _ _ _ Ha) as (A & B & C).
      destruct (I13 c Hc) as [H|H]; rewrite Ep in H.
      * apply (Hrs _ H). apply (I4 (a_v a)). apply in_or_app. right. apply in_or_app. left. exact C.
      * exact (NoDup_app_disj _ _ NDa _ H C).
    + destruct (assign_in _ _ _ _ _ Hc) as (A & B & C).
      destruct (I5 (a_v c)) as [H|(a' & A' & B' & C')]; [apply in_or_app; left; exact C| |].
      * exfalso. rewrite Ep in H. apply (Hrs _ H). apply in_app_or in Ha. destruct Ha as [Ha|Ha].
        -- apply (I4 (a_v a)). apply in_or_app. left. apply in_map. exact Ha.
        -- destruct (assign_in _ _ _ _ _ Ha) as (_ & _ & X). apply (I4 (a_v a)).
           apply in_or_app. right. apply in_or_app. left. exact X.
      * assert (a = a').
        { apply (nodup_map_inj a_v (asg ++ assign_from u i p g)); [rewrite Em; exact NDa|exact Ha| |congruence].
          apply in_or_app. left. exact A'. }
        subst a'. lia.
  - intros d x Hd [].
  - intros x [].
  - intros c Hc. apply in_app_or in Hc. destruct Hc as [Hc|Hc].
    + destruct (I13 c Hc) as [H|H]; [auto|]. right. apply in_or_app. auto.
    + destruct (assign_in _ _ _ _ _ Hc) as (A & B & C).
      destruct (I5 (a_v c)) as [H|(a & A' & B' & _)]; [apply in_or_app; auto|auto|].
      right. apply in_or_app. left. rewrite <- B'. apply in_map. exact A'.
Qed.

Lemma tinv_swap nq cur asg u : tinv t k rs [] nq cur asg u [] -> tinv t k rs nq [] (S cur) asg u [].
Proof.
  intros [I1 I2 I3 I4 I5 I6 I7 I8 I9 I10 I11 I12 I13]. cbn [app] in *.
  split; cbn [app]; rewrite ?app_nil_r in *; auto.
  - intros x Hx. destruct (I4 x) as (_ & _ & _ & [H|H]); [apply in_or_app; right; exact Hx|auto|].
    right. rewrite ?app_nil_r in H. apply in_map_iff in H. destruct H as (a & E & Ha). exists a. split; [exact Ha|]. split; [exact E|].
    destruct (I6 a Ha). lia.
  - intros a Ha. destruct (I6 a Ha). split; [assumption|lia].
Qed.

End Thr.
