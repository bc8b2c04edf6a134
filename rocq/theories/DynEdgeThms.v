(** Proofs about the pins of one hyperedge. *)
From Coq Require Import List Arith Lia Bool Permutation Sorted.
From Verif Require Import Base INA INARep INAOps2 DynEdge DynEdgeSpec.
Import ListNotations.
Local Open Scope nat_scope.

Lemma set_nth_app {A} (l1 : list A) x y l2 : set_nth (l1 ++ x :: l2) (length l1) y = l1 ++ y :: l2.
Proof. induction l1 as [|z l1 IH]; cbn; [reflexivity|]. rewrite IH. reflexivity. Qed.
Lemma nth_app_mid {A} (l1 : list A) x l2 d : nth (length l1) (l1 ++ x :: l2) d = x.
Proof. induction l1 as [|z l1 IH]; cbn; [reflexivity|exact IH]. Qed.

Lemma swap_app (l1 l2 l3 : list nat) x y :
  swap_at (l1 ++ x :: l2 ++ y :: l3) (length l1) (length l1 + S (length l2)) = l1 ++ y :: l2 ++ x :: l3.
Proof.
  unfold swap_at. rewrite nth_app_mid.
  assert (E : l1 ++ x :: l2 ++ y :: l3 = (l1 ++ x :: l2) ++ y :: l3) by (rewrite <- app_assoc; reflexivity).
  assert (L : length l1 + S (length l2) = length (l1 ++ x :: l2)) by (rewrite app_length; reflexivity).
  assert (N : nth (length l1 + S (length l2)) (l1 ++ x :: l2 ++ y :: l3) 0 = y) by (rewrite E, L; apply nth_app_mid).
  rewrite N, set_nth_app.
  replace (l1 ++ y :: l2 ++ y :: l3) with ((l1 ++ y :: l2) ++ y :: l3) by (rewrite <- app_assoc; reflexivity).
  replace (length l1 + S (length l2)) with (length (l1 ++ y :: l2)) by (rewrite app_length; reflexivity).
  rewrite set_nth_app, <- app_assoc. reflexivity.
Qed.

Lemma scan_spec u v inv : u <> v -> forall fuel pre rest y slot,
  2 * length rest + (if y =? v then 0 else 1) <= fuel ->
  NoDup (pre ++ rest ++ [y]) -> In v (rest ++ [y]) ->
  exists mid slot', scan fuel u v (length pre) (length pre + length rest) slot (pre ++ rest ++ y :: inv)
                = (pre ++ mid ++ v :: inv, slot') /\
    length mid = length rest /\ Permutation (mid ++ [v]) (rest ++ [y]) /\
    ((In u mid /\ slot' < length pre + length rest) \/ (~ In u mid /\ slot' = slot)).
Proof.
  intros Huv. induction fuel as [|f IH]; intros pre rest y slot Hf ND Hv.
  - destruct rest as [|x rest]; cbn [length] in Hf; [|lia]. destruct (Nat.eqb_spec y v) as [->|N]; [|lia].
    exists [], slot. cbn. split; [reflexivity|]. split; [reflexivity|]. split; [apply Permutation_refl|]. right. split; [intros []|reflexivity].
  - cbn [scan]. destruct rest as [|x rest].
    + cbn [length]. rewrite Nat.add_0_r, Nat.eqb_refl. destruct Hv as [->|[]]. exists [], slot. cbn. split; [reflexivity|]. split; [reflexivity|]. split; [apply Permutation_refl|]. right. split; [intros []|reflexivity].
    + cbn [length] in *. destruct (Nat.eqb_spec (length pre) (length pre + S (length rest))) as [X|_]; [lia|].
      change (pre ++ (x :: rest) ++ y :: inv) with (pre ++ x :: rest ++ y :: inv).
      cbv zeta. rewrite nth_app_mid. destruct (Nat.eqb_spec x v) as [->|Nx].
      * rewrite swap_app. destruct (Nat.eqb_spec y v) as [->|Ny].
        { exfalso. apply NoDup_app_remove_l in ND. cbn in ND. apply NoDup_cons_iff in ND. apply ND.
          apply in_or_app. right. left. reflexivity. }
        destruct (IH pre (y :: rest) v slot) as (mid & slot' & E & L & P & S).
        -- cbn [length]. rewrite Nat.eqb_refl. lia.
        -- eapply Permutation_NoDup; [|exact ND]. apply Permutation_app_head. cbn.
           rewrite !(Permutation_app_comm rest). cbn. apply perm_swap.
        -- apply in_or_app. right. left. reflexivity.
        -- exists mid, slot'. cbn [length] in *. split; [exact E|]. split; [exact L|]. split; [|exact S].
           rewrite P. cbn. rewrite !(Permutation_app_comm rest). cbn. apply perm_swap.
      * assert (Hv' : In v (rest ++ [y])) by (destruct Hv as [X|X]; [congruence|exact X]).
        assert (ND' : NoDup ((pre ++ [x]) ++ rest ++ [y])) by (rewrite <- app_assoc; exact ND).
        assert (EE : pre ++ x :: rest ++ y :: inv = (pre ++ [x]) ++ rest ++ y :: inv) by (rewrite <- app_assoc; reflexivity).
        assert (LL : length (pre ++ [x]) = S (length pre)) by (rewrite app_length; cbn; lia).
        assert (LL2 : length pre + S (length rest) = length (pre ++ [x]) + length rest) by lia.
        destruct (Nat.eqb_spec x u) as [->|Nu].
        -- destruct (IH (pre ++ [u]) rest y (length pre)) as (mid & slot' & E & L & P & S);
             [destruct (y =? v); lia|exact ND'|exact Hv'|].
           exists (u :: mid), slot'. rewrite EE, LL2, <- LL. split.
           { rewrite E, <- app_assoc. reflexivity. }
           split; [cbn; lia|]. split; [cbn; constructor; exact P|]. left. split; [left; reflexivity|]. destruct S as [[_ S]|[_ ->]]; lia.
        -- destruct (IH (pre ++ [x]) rest y slot) as (mid & slot' & E & L & P & S);
             [destruct (y =? v); lia|exact ND'|exact Hv'|].
           exists (x :: mid), slot'. rewrite EE, LL2, <- LL. split.
           { rewrite E, <- app_assoc. reflexivity. }
           split; [cbn; lia|]. split; [cbn; constructor; exact P|]. destruct S as [[S1 S2]|[S1 S2]].
           ++ left. split; [right; exact S1|lia].
           ++ right. split; [|exact S2]. intros [X|X]; contradiction.
Qed.

Lemma firstn_app_len {A} (l1 l2 : list A) : firstn (length l1) (l1 ++ l2) = l1.
Proof. rewrite firstn_app, firstn_all, Nat.sub_diag. cbn. apply app_nil_r. Qed.
Lemma skipn_app_len {A} (l1 l2 : list A) : skipn (length l1) (l1 ++ l2) = l2.
Proof. rewrite skipn_app, skipn_all, Nat.sub_diag. reflexivity. Qed.

Lemma valid_mk l1 l2 n : n = length l1 -> valid (mkEdge (l1 ++ l2) n) = l1.
Proof. intros ->. apply firstn_app_len. Qed.
Lemma invalid_mk l1 l2 n : n = length l1 -> invalid (mkEdge (l1 ++ l2) n) = l2.
Proof. intros ->. apply skipn_app_len. Qed.

(** what contractHyperedge does *)
Lemma contract_spec e u v : NoDup (valid e) -> e_size e <= length (e_arr e) -> In v (valid e) -> u <> v ->
  let e' := fst (contractHyperedge e u v) in let sh := snd (contractHyperedge e u v) in
  e_size e' <= length (e_arr e') /\ exists mid, Permutation (mid ++ [v]) (valid e) /\
  ((In u (valid e) /\ sh = true /\ valid e' = mid /\ invalid e' = v :: invalid e) \/
   (~ In u (valid e) /\ sh = false /\ valid e' = mid ++ [u] /\ invalid e' = invalid e)).
Proof.
  intros ND Hl Hv Huv. cbv zeta. unfold contractHyperedge.
  assert (Lv : length (valid e) = e_size e) by (unfold valid; apply firstn_length_le; exact Hl).
  assert (Ea : e_arr e = valid e ++ invalid e) by (symmetry; apply firstn_skipn).
  destruct (@exists_last _ (valid e)) as (rest & y & Er); [intros X; rewrite X in Hv; destruct Hv|].
  rewrite Er in Lv, Ea, ND, Hv. rewrite app_length in Lv. cbn in Lv.
  assert (Es : e_size e = S (length rest)) by lia.
  destruct (scan_spec u v (invalid e) Huv (2 * e_size e) [] rest y (e_size e - 1)) as (mid & slot' & E & L & P & S).
  - destruct (y =? v); lia.
  - exact ND.
  - exact Hv.
  - cbn [app length Nat.add] in E, S. replace (e_size e - 1) with (length rest) in * by lia.
    rewrite <- app_assoc in Ea. rewrite Ea. cbn [app]. rewrite E. rewrite Er.
    assert (Humid : In u (rest ++ [y]) <-> In u mid).
    { split; intros X.
      - apply (Permutation_in _ (Permutation_sym P)) in X. apply in_app_or in X. destruct X as [X|[X|[]]]; [exact X|congruence].
      - apply (Permutation_in _ P). apply in_or_app. left. exact X. }
    destruct S as [[S1 S2]|[S1 S2]].
    + destruct (Nat.eqb_spec slot' (length rest)) as [X|_]; [lia|]. cbn [negb fst snd e_size e_arr].
      split; [rewrite app_length; cbn; lia|]. exists mid. split; [exact P|]. left.
      rewrite Humid, valid_mk, invalid_mk by lia. auto.
    + subst slot'. rewrite Nat.eqb_refl. cbn [negb fst snd e_size e_arr].
      rewrite <- L, set_nth_app. split; [rewrite Es, app_length; cbn; lia|].
      exists mid. split; [exact P|]. right. rewrite Humid.
      replace (mid ++ u :: invalid e) with ((mid ++ [u]) ++ invalid e) by (rewrite <- app_assoc; reflexivity).
      rewrite valid_mk, invalid_mk by (rewrite app_length; cbn; lia). auto.
Qed.

(** ** The contraction phase *)
Definition nsh (x : nat) (ops : list eop) : Prop := exists o, In o ops /\ o_u o = x /\ o_sh o = false.
Lemma nsh_app x l1 l2 : nsh x (l1 ++ l2) <-> nsh x l1 \/ nsh x l2.
Proof.
  split.
  - intros (o & Hi & H). apply in_app_or in Hi. destruct Hi as [Hi|Hi]; [left|right]; exists o; auto.
  - intros [(o & Hi & H)|(o & Hi & H)]; exists o; split; auto; apply in_or_app; auto.
Qed.
Lemma nsh_one x o : nsh x [o] <-> o_u o = x /\ o_sh o = false.
Proof. split; [intros (o' & [->|[]] & H); exact H|intros H; exists o; split; [left; reflexivity|exact H]]. Qed.

Record cinv (P0 : list nat) (ops : list eop) (e : edge) : Prop := {
  ci_len : e_size e <= length (e_arr e);
  ci_nd : NoDup (valid e ++ invalid e);
  ci_valid : forall x, In x (valid e) <-> (In x P0 \/ nsh x ops) /\ ~ In x (map o_v ops);
  ci_inv : forall x, In x (invalid e) <-> exists o, In o ops /\ o_v o = x /\ o_sh o = true }.

Record legal1 (P0 : list nat) (l1 : list eop) (o : eop) : Prop := {
  lg_uv : o_u o <> o_v o;
  lg_u : ~ In (o_u o) (map o_v l1);
  lg_v : ~ In (o_v o) (map o_v l1);
  lg_v2 : In (o_v o) P0 \/ nsh (o_v o) l1;
  lg_sh : o_sh o = true <-> In (o_u o) P0 \/ nsh (o_u o) l1 }.
Definition legal (P0 : list nat) (ops : list eop) : Prop :=
  forall l1 o l2, ops = l1 ++ o :: l2 -> legal1 P0 l1 o.

Lemma app_one_split {A} (l1 l2 ops : list A) (o o' : A) : ops ++ [o'] = l1 ++ o :: l2 ->
  (l2 = [] /\ l1 = ops /\ o = o') \/ exists l3, l2 = l3 ++ [o'] /\ ops = l1 ++ o :: l3.
Proof.
  intros E. destruct l2 as [|z l2] using rev_ind.
  - left. apply app_inj_tail in E. destruct E as [-> ->]. auto.
  - right. clear IHl2. exists l2. change (l1 ++ o :: l2 ++ [z]) with (l1 ++ (o :: l2) ++ [z]) in E.
    rewrite app_assoc in E. apply app_inj_tail in E. destruct E as [-> ->]. auto.
Qed.

Lemma erun_inv P0 ops e : NoDup P0 -> erun P0 ops e -> cinv P0 ops e /\ legal P0 ops.
Proof.
  intros NP R. induction R as [|ops e u v R [IH LG] Hv Huv Hu|ops e l R [IH LG] Hp].
  - split.
    + constructor; unfold valid, invalid; cbn [e_arr e_size]; rewrite ?firstn_all, ?skipn_all.
      * lia.
      * rewrite app_nil_r. exact NP.
      * intros x. cbn. split; [intros H; split; [left; exact H|intros []]|].
        intros [[H|(o & [] & _)] _]. exact H.
      * intros x. cbn. split; [intros []|intros (o & [] & _)].
    + intros l1 o l2 E. destruct l1; discriminate.
  - destruct (contract_spec e u v) as (Hl & mid & P & D);
      [exact (NoDup_app_remove_r _ _ (ci_nd _ _ _ IH))|exact (ci_len _ _ _ IH)|exact Hv|exact Huv|].
    cbv zeta in Hl, D. set (e' := fst (contractHyperedge e u v)) in *. set (sh := snd (contractHyperedge e u v)) in *.
    assert (Hmid : forall x, In x mid <-> In x (valid e) /\ x <> v).
    { assert (ND : NoDup (mid ++ [v])) by (eapply Permutation_NoDup; [symmetry; exact P|exact (NoDup_app_remove_r _ _ (ci_nd _ _ _ IH))]).
      intros x. split.
      - intros H. split; [apply (Permutation_in _ P); apply in_or_app; auto|].
        intros ->. apply (NoDup_remove_2 mid [] v ND). rewrite app_nil_r. exact H.
      - intros [H N]. apply (Permutation_in _ (Permutation_sym P)) in H. apply in_app_or in H.
        destruct H as [H|[H|[]]]; [exact H|congruence]. }
    assert (Hvo : ~ In v (map o_v ops)) by (apply (ci_valid _ _ _ IH); exact Hv).
    assert (Hv2 : In v P0 \/ nsh v ops) by (apply (ci_valid _ _ _ IH); exact Hv).
    assert (Huval : In u (valid e) <-> In u P0 \/ nsh u ops).
    { rewrite (ci_valid _ _ _ IH). tauto. }
    assert (Hmo : forall x, In x (map o_v (ops ++ [mkOp u v sh])) <-> In x (map o_v ops) \/ x = v).
    { intros x. rewrite map_app, in_app_iff. cbn. intuition. }
    assert (Hio : forall x, (exists o, In o (ops ++ [mkOp u v sh]) /\ o_v o = x /\ o_sh o = true) <->
               In x (invalid e) \/ (x = v /\ sh = true)).
    { intros x. rewrite (ci_inv _ _ _ IH). split.
      - intros (o & Hi & H1 & H2). apply in_app_or in Hi. destruct Hi as [Hi|[<-|[]]]; [left; exists o; auto|right; cbn in *; auto].
      - intros [(o & Hi & H)|[-> H]]; [exists o; split; [apply in_or_app; auto|exact H]|].
        exists (mkOp u v sh). split; [apply in_or_app; right; left; reflexivity|auto]. }
    split.
    + assert (NDvi : NoDup ((mid ++ [v]) ++ invalid e)).
      { eapply Permutation_NoDup; [|exact (ci_nd _ _ _ IH)]. apply Permutation_app_tail. symmetry. exact P. }
      destruct D as [(Hu' & Es & Ev & Ei)|(Hu' & Es & Ev & Ei)]; constructor; try exact Hl; rewrite ?Ev, ?Ei.
      * rewrite <- app_assoc in NDvi. exact NDvi.
      * intros x. rewrite Hmid, (ci_valid _ _ _ IH), nsh_app, nsh_one, Hmo. cbn [o_u o_sh].
        assert (sh = false -> False) by congruence. intuition congruence.
      * intros x. rewrite Hio. cbn. intuition.
      * assert (Hui : ~ In u (invalid e)).
        { rewrite (ci_inv _ _ _ IH). intros (o & Hi & H & _). apply Hu. rewrite <- H. apply in_map. exact Hi. }
        apply NoDup_app_i.
        -- apply NoDup_app_i; [|constructor; [intros []|constructor]|].
           ++ exact (NoDup_app_remove_r _ _ (NoDup_app_remove_r _ _ NDvi)).
           ++ intros x Hx [<-|[]]. apply Hu'. apply Hmid. exact Hx.
        -- exact (NoDup_app_remove_l _ _ NDvi).
        -- intros x Hx Hx2. apply in_app_or in Hx. destruct Hx as [Hx|[<-|[]]]; [|contradiction].
           apply (NoDup_app_disj _ _ NDvi x); [apply in_or_app; auto|exact Hx2].
      * intros x. rewrite in_app_iff, Hmid, (ci_valid _ _ _ IH), nsh_app, nsh_one, Hmo. cbn [o_u o_sh In].
        split.
        -- intros [H|[<-|[]]]; [tauto|]. split; [tauto|]. intros [H|H]; [exact (Hu H)|congruence].
        -- intros [[H|[H|[H _]]] N]; [left; tauto|left; tauto|right; left; exact H].
      * intros x. rewrite Hio. assert (sh = true -> False) by congruence. tauto.
    + intros l1 o l2 E. apply app_one_split in E. destruct E as [(-> & -> & ->)|(l3 & -> & ->)].
      * constructor; cbn [o_u o_v o_sh]; auto. rewrite <- Huval.
        destruct D as [(Hu' & Es & _)|(Hu' & Es & _)]; rewrite Es; split; intros X; try congruence; auto; contradiction.
      * exact (LG l1 o l3 eq_refl).
  - split; [|exact LG].
    assert (Ll : e_size e = length l).
    { rewrite (Permutation_length Hp). unfold valid. rewrite firstn_length_le; [reflexivity|exact (ci_len _ _ _ IH)]. }
    constructor; rewrite ?valid_mk, ?invalid_mk by exact Ll.
    + cbn. rewrite app_length. lia.
    + eapply Permutation_NoDup; [|exact (ci_nd _ _ _ IH)]. apply Permutation_app_tail. symmetry. exact Hp.
    + intros x. rewrite <- (ci_valid _ _ _ IH). split; apply Permutation_in; [exact Hp|symmetry; exact Hp].
    + exact (ci_inv _ _ _ IH).
Qed.

(** ** Facts about a legal sequence *)
Lemma legal_in P0 ops o : legal P0 ops -> In o ops -> exists l1 l2, ops = l1 ++ o :: l2 /\ legal1 P0 l1 o.
Proof. intros L H. apply in_split in H. destruct H as (l1 & l2 & E). exists l1, l2. split; [exact E|exact (L _ _ _ E)]. Qed.

Lemma legal_prefix P0 l1 l2 : legal P0 (l1 ++ l2) -> legal P0 l1.
Proof. intros L a o b E. apply (L a o (b ++ l2)). rewrite E, <- app_assoc. reflexivity. Qed.

Lemma legal_nd P0 ops : legal P0 ops -> NoDup (map o_v ops).
Proof.
  induction ops as [|o ops IH] using rev_ind; intros L; [constructor|].
  rewrite map_app. apply NoDup_app_i.
  - apply IH. exact (legal_prefix _ _ _ L).
  - cbn. constructor; [intros []|constructor].
  - intros x Hx [<-|[]]. exact (lg_v _ _ _ (L ops o [] eq_refl) Hx).
Qed.

Lemma legal_v_inj P0 ops o1 o2 : legal P0 ops -> In o1 ops -> In o2 ops -> o_v o1 = o_v o2 -> o1 = o2.
Proof.
  intros L H1 H2 E. pose proof (legal_nd _ _ L) as ND. clear L.
  induction ops as [|o ops IH]; [destruct H1|]. cbn in ND. apply NoDup_cons_iff in ND. destruct ND as [N ND].
  destruct H1 as [<-|H1], H2 as [<-|H2]; auto.
  - exfalso. apply N. rewrite E. apply in_map. exact H2.
  - exfalso. apply N. rewrite <- E. apply in_map. exact H1.
Qed.

(** a non-shared contraction onto [u] is the first one onto [u] *)
Lemma legal_first P0 ops l1 o l2 o' : legal P0 ops -> ops = l1 ++ o :: l2 -> o_sh o = false ->
  In o' l1 -> o_u o' <> o_u o.
Proof.
  intros L E Hs Hi Eu. pose proof (L _ _ _ E) as G. apply in_split in Hi. destruct Hi as (a & c & ->).
  assert (G' : legal1 P0 a o') by (apply (L a o' (c ++ o :: l2)); rewrite E, <- app_assoc; reflexivity).
  assert (X : In (o_u o) P0 \/ nsh (o_u o) (a ++ o' :: c)).
  { destruct (o_sh o') eqn:Es.
    - apply (lg_sh _ _ _ G') in Es. rewrite Eu in Es. destruct Es as [X|X]; [left; exact X|right; rewrite nsh_app; auto].
    - right. exists o'. split; [apply in_or_app; right; left; reflexivity|auto]. }
  apply (lg_sh _ _ _ G) in X. congruence.
Qed.

Lemma legal_nsh_uniq P0 ops o1 o2 : legal P0 ops -> In o1 ops -> In o2 ops ->
  o_sh o1 = false -> o_sh o2 = false -> o_u o1 = o_u o2 -> o1 = o2.
Proof.
  intros L H1 H2 S1 S2 E. apply in_split in H1. destruct H1 as (l1 & l2 & E1). rewrite E1 in H2.
  apply in_app_or in H2. destruct H2 as [H2|[H2|H2]]; [|exact H2|].
  - exfalso. exact (legal_first _ _ _ _ _ o2 L E1 S1 H2 (eq_sym E)).
  - exfalso. apply in_split in H2. destruct H2 as (a & c & ->).
    apply (legal_first P0 ops (l1 ++ o1 :: a) o2 c o1 L); auto.
    + rewrite E1, <- app_assoc. reflexivity.
    + apply in_or_app. right. left. reflexivity.
Qed.

Lemma legal_nsh_P0 P0 ops o : legal P0 ops -> In o ops -> o_sh o = false -> ~ In (o_u o) P0.
Proof.
  intros L H S X. destruct (legal_in _ _ _ L H) as (l1 & l2 & _ & G).
  assert (o_sh o = true) by (apply (lg_sh _ _ _ G); left; exact X). congruence.
Qed.
