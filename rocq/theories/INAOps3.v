(** restoreIncidentNets and the incident net iterator *)
From Coq Require Import List Arith Lia ZArith Bool Permutation.
From Verif Require Import Base INA INASpec INALoop INARep INAOps INAOps2.
Import ListNotations.
Local Open Scope nat_scope.

Fixpoint pseg (nx pv : nat -> nat) (a : nat) (l : list nat) : Prop :=
  match l with
  | [] => True
  | x :: l' => nx a = x /\ pv x = a /\ pseg nx pv x l'
  end.
Lemma pseg_snoc nx pv : forall l a x,
  pseg nx pv a (l ++ [x]) <-> pseg nx pv a l /\ nx (last l a) = x /\ pv x = last l a.
Proof.
  induction l as [|y l IH]; intros a x; cbn [app pseg].
  - cbn. tauto.
  - rewrite IH, last_cons. tauto.
Qed.
Lemma pseg_close nx pv : forall l a b,
  seg nx pv a l b <-> pseg nx pv a l /\ nx (last l a) = b /\ pv b = last l a.
Proof.
  induction l as [|y l IH]; intros a b; cbn [seg pseg].
  - cbn. tauto.
  - rewrite IH, last_cons. tauto.
Qed.
Lemma pseg_ext nx pv nx' pv' : forall l a, pseg nx pv a l -> NoDup (a :: l) ->
  (forall x, In x (a :: l) -> x <> last l a -> nx' x = nx x) ->
  (forall x, In x l -> pv' x = pv x) -> pseg nx' pv' a l.
Proof.
  induction l as [|y l IH]; intros a H ND H1 H2; [exact I|]. cbn [pseg] in *.
  destruct H as (E1 & E2 & H). rewrite last_cons in H1.
  pose proof ND as X. apply NoDup_cons_iff in X. destruct X as [Hn ND'].
  split; [|split].
  - rewrite H1; [exact E1|left; reflexivity|]. intros E. apply Hn. rewrite E. apply last_in.
  - rewrite H2 by (left; reflexivity). exact E2.
  - apply IH; auto.
    + intros x Hx. apply H1. right. exact Hx.
    + intros x Hx. apply H2. right. exact Hx.
Qed.

Definition kof (s : ina) (w : nat) : nat :=
  lead (i_ver s w - 1) (skipn (i_size s w) (i_ent s w)).
Definition evof (s : ina) (w : nat) : list event :=
  map (fun en => Two (fst en)) (firstn (i_size s w) (i_ent s w)) ++
  map (fun en => One (fst en)) (firstn (kof s w) (skipn (i_size s w) (i_ent s w))).

Record rs_inv (s0 s : ina) (u : nat) (l done : list nat) (lst : option nat) : Prop := {
  rs_next : i_next s = i_next s0;
  rs_prev : i_prev s = i_prev s0;
  rs_tail : i_tail s = i_tail s0;
  rs_head : i_head s = i_head s0;
  rs_ent : i_ent s = i_ent s0;
  rs_todo : forall w, ~ In w done -> i_size s w = i_size s0 w /\ i_ver s w = i_ver s0 w /\ i_itp s w = i_itp s0 w;
  rs_done : forall w, In w done -> i_ver s w = (i_ver s0 w - 1)%Z /\ i_size s w = i_size s0 w + kof s0 w;
  rs_deg : forall w, w <> u -> i_deg s w = i_deg s0 w;
  rs_degu : i_deg s u = (i_deg s0 u + sumZ (fun w => Z.of_nat (kof s0 w)) done)%Z;
  rs_pre : match done with
           | [] => lst = None
           | _ :: dr => lst = Some (last (filter (ne s) dr) u) /\
                        pseg (i_itn s) (i_itp s) u (filter (ne s) dr)
           end;
  rs_itn : forall w, ~ In w done \/ lst = Some w -> i_itn s w = i_itn s0 w;
  rs_emp : forall w, In w done -> w <> u -> i_size s w = 0 -> i_itn s w = i_itn s0 w /\ i_itp s w = i_itp s0 w }.

Definition rs_body (s : ina) (u cur : nat) (lst : option nat) : ina * option nat :=
  let k := kof s cur in
  let s1 := set_deg (set_size (set_ver s cur (i_ver s cur - 1)%Z) cur (i_size s cur + k))
              u (i_deg s u + Z.of_nat k)%Z in
  if (0 <? i_size s1 cur) || (cur =? u) then
      (match lst with
       | Some x => if i_itp s1 cur =? x then s1
                   else set_itp (set_itn s1 x cur) cur x
       | None => s1
       end, Some cur)
    else (s1, lst).
Definition rs_fin (s : ina) (u : nat) (lst : option nat) : ina :=
  match lst with Some x => set_itn (set_itp s u x) x u | None => s end.
Lemma rs_chain_eq fuel s u cur lst evs :
  rs_chain fuel s u cur lst evs =
  let (s2, last2) := rs_body s u cur lst in
  let evs1 := evs ++ evof s cur in
  match fuel with
  | 0 => (rs_fin s2 u last2, evs1)
  | S f => if i_next s2 cur =? u then (rs_fin s2 u last2, evs1)
           else rs_chain f s2 u (i_next s2 cur) last2 evs1
  end.
Proof.
  unfold rs_body, rs_fin. destruct fuel; cbn [rs_chain]; fold (kof s cur) (evof s cur); cbv zeta;
  destruct (_ || _); cbv zeta; reflexivity.
Qed.

Lemma rs_step s0 s u l done cur todo lst :
  NoDup (u :: l) -> u :: l = done ++ cur :: todo ->
  (forall w, In w (u :: l) -> In (i_itp s0 w) (u :: l) -> i_itn s0 (i_itp s0 w) = w) ->
  rs_inv s0 s u l done lst ->
  let '(s2, lst2) := rs_body s u cur lst in
  rs_inv s0 s2 u l (done ++ [cur]) lst2 /\ evof s cur = evof s0 cur.
Proof.
  intros ND E Hweak J.
  assert (NDs : NoDup (done ++ cur :: todo)) by (rewrite <- E; exact ND).
  assert (Hcd : ~ In cur done).
  { intros Hi. apply (NoDup_app_disj _ _ NDs cur); [exact Hi|left; reflexivity]. }
  assert (Hcm : In cur (u :: l)).
  { rewrite E. apply in_or_app. right. left. reflexivity. }
  destruct J as [In1 Ip It Ih Ie Itodo Idone Id Idu Ipre Iitn Iemp].
  destruct (Itodo cur Hcd) as (Es & Ev & Eip).
  assert (Ek : kof s cur = kof s0 cur) by (unfold kof; rewrite Ie, Es, Ev; reflexivity).
  assert (Eev : evof s cur = evof s0 cur) by (unfold evof; rewrite Ek, Ie, Es; reflexivity).
  unfold rs_body. cbv zeta. rewrite Ek.
  set (k := kof s0 cur) in *.
  set (s1 := set_deg (set_size (set_ver s cur (i_ver s cur - 1)%Z) cur (i_size s cur + k)) u (i_deg s u + Z.of_nat k)%Z).
  assert (Esz : i_size s1 cur = i_size s cur + k) by (cbn; apply upd_same).
  assert (Hsz : forall w, w <> cur -> i_size s1 w = i_size s w) by (intros w Hw; cbn; apply upd_other; auto).
  (* whatever happens to the iterator pointers *)
  assert (Gen : forall s2 lst2,
    i_prev s2 = i_prev s -> i_next s2 = i_next s -> i_tail s2 = i_tail s -> i_head s2 = i_head s ->
    i_ent s2 = i_ent s -> i_size s2 = i_size s1 -> i_ver s2 = i_ver s1 -> i_deg s2 = i_deg s1 ->
    (forall w, ~ In w (done ++ [cur]) -> i_itp s2 w = i_itp s w) ->
    match done ++ [cur] with
    | [] => lst2 = None
    | _ :: dr => lst2 = Some (last (filter (ne s2) dr) u) /\
                 pseg (i_itn s2) (i_itp s2) u (filter (ne s2) dr)
    end ->
    (forall w, ~ In w (done ++ [cur]) \/ lst2 = Some w -> i_itn s2 w = i_itn s0 w) ->
    (forall w, In w (done ++ [cur]) -> w <> u -> i_size s2 w = 0 -> i_itn s2 w = i_itn s0 w /\ i_itp s2 w = i_itp s0 w) ->
    rs_inv s0 s2 u l (done ++ [cur]) lst2).
  { intros s2 lst2 Gp Gn Gt Gh Ge Gs Gv Gd G1 G2 G3 G4.
    split; try congruence.
    - intros w Hw.
      assert (w <> cur) by (intros ->; apply Hw; apply in_or_app; right; left; reflexivity).
      assert (Hd : ~ In w done) by (intros Hi; apply Hw; apply in_or_app; left; exact Hi).
      rewrite Gs, Gv, Hsz, (G1 w Hw) by auto. cbn. rewrite upd_other by auto. apply Itodo. exact Hd.
    - intros w Hw. rewrite Gs, Gv. apply in_app_or in Hw. destruct Hw as [Hw|[<-|[]]].
      + assert (w <> cur) by (intros ->; contradiction).
        rewrite Hsz by auto. cbn. rewrite upd_other by auto. apply Idone. exact Hw.
      + rewrite Esz. cbn. rewrite upd_same, Es, Ev. auto.
    - intros w Hw. rewrite Gd. cbn. rewrite upd_other by auto. apply Id. exact Hw.
    - rewrite Gd. cbn. rewrite upd_same, sumZ_snoc, Idu. fold k. lia.
    - exact G3.
    - exact G4. }
  assert (Hne : forall w, w <> cur -> ne s1 w = ne s w) by (intros w Hw; unfold ne; rewrite Hsz; auto).
  destruct done as [|d0 dr].
  - (* cur = u *)
    cbn in E. injection E as Eu El. subst cur. rewrite Nat.eqb_refl, orb_true_r. rewrite Ipre.
    split; [|exact Eev].
    apply Gen; try reflexivity.
    + cbn [app]. cbn. auto.
    + intros w _. cbn. apply Iitn. left. intros [].
    + intros w [<-|[]] Hw. contradiction.
  - cbn in E. injection E as Eu El. subst d0. destruct Ipre as [Elst Ips].
    assert (Hcu : cur <> u) by (intros ->; apply Hcd; left; reflexivity).
    destruct (Nat.eqb_spec cur u); [contradiction|]. rewrite orb_false_r.
    set (q := filter (ne s) dr) in *.
    set (x := last q u) in *.
    assert (NDdr : NoDup (u :: dr)).
    { apply (NoDup_app_remove_r (u :: dr) (cur :: todo)). exact NDs. }
    assert (NDq : NoDup (u :: q)) by (apply NoDup_cons_filter; exact NDdr).
    assert (Hxd : In x (u :: dr)) by (apply (@in_filter_ring (ne s)); apply last_in).
    assert (Hxc : x <> cur) by (intros Hx; apply Hcd; rewrite <- Hx; exact Hxd).
    assert (Efil : forall s2, i_size s2 = i_size s1 -> filter (ne s2) dr = q).
    { intros s2 G. apply filter_ext_in. intros w Hw. unfold ne. rewrite G.
      rewrite Hsz; [reflexivity|]. intros ->. apply Hcd. right. exact Hw. }
    destruct (Nat.ltb_spec 0 (i_size s1 cur)) as [Hpos|Hzero].
    + rewrite Elst.
      assert (Efil2 : forall s2, i_size s2 = i_size s1 -> filter (ne s2) (dr ++ [cur]) = q ++ [cur]).
      { intros s2 G. rewrite filter_app, (Efil s2 G). cbn [filter]. unfold ne. rewrite G.
        destruct (Nat.eqb_spec (i_size s1 cur) 0); [lia|reflexivity]. }
      change (i_itp s1 cur) with (i_itp s cur).
      destruct (Nat.eqb_spec (i_itp s cur) x) as [Eitp|Nitp].
      * split; [|exact Eev]. apply Gen; try reflexivity.
        -- cbn [app]. rewrite (Efil2 s1) by reflexivity. rewrite last_app_cons. cbn [last].
           split; [reflexivity|]. apply pseg_snoc. split; [exact Ips|]. split.
           ++ change (i_itn s1) with (i_itn s). fold x. rewrite (Iitn x) by (right; exact Elst).
              rewrite <- Eitp, Eip. apply Hweak; [exact Hcm|]. rewrite <- Eip, Eitp.
              rewrite El. destruct Hxd as [Hx|Hx]; [left; exact Hx|right].
              apply in_or_app. left. exact Hx.
           ++ exact Eitp.
        -- intros w [Hw|Hw].
           ++ apply Iitn. left. intros Hi. apply Hw. apply in_or_app. left. exact Hi.
           ++ injection Hw as <-. apply Iitn. left. exact Hcd.
        -- intros w Hw Hwu Hz. apply in_app_or in Hw. destruct Hw as [Hw|[<-|[]]]; [|lia].
           change (i_itn s1 w) with (i_itn s w). change (i_itp s1 w) with (i_itp s w).
           apply Iemp; auto. rewrite <- Hsz; auto. intros ->. contradiction.
      * split; [|exact Eev]. apply Gen; try reflexivity.
        -- intros w Hw. cbn. apply upd_other. intros ->. apply Hw. apply in_or_app. right. left. reflexivity.
        -- cbn [app]. rewrite Efil2 by reflexivity. rewrite last_app_cons. cbn [last].
           split; [reflexivity|]. apply pseg_snoc. cbn. split; [|split].
           ++ apply (pseg_ext (i_itn s) (i_itp s)); auto.
              ** intros w Hw Hne'. apply upd_other. exact Hne'.
              ** intros w Hw. apply upd_other. intros ->. apply Hcd. right.
                 unfold q in Hw. apply filter_In in Hw. apply Hw.
           ++ fold x. apply upd_same.
           ++ fold x. apply upd_same.
        -- intros w [Hw|Hw]; cbn.
           ++ rewrite upd_other.
              ** apply Iitn. left. intros Hi. apply Hw. apply in_or_app. left. exact Hi.
              ** intros ->. apply Hw. apply in_or_app. left. exact Hxd.
           ++ injection Hw as <-. rewrite upd_other by auto. apply Iitn. left. exact Hcd.
        -- intros w Hw Hwu Hz. apply in_app_or in Hw. destruct Hw as [Hw|[<-|[]]]; [|change (i_size s1 cur = 0) in Hz; lia].
           assert (Hwc : w <> cur) by (intros ->; contradiction).
           assert (Hzw : i_size s w = 0) by (rewrite <- Hsz; auto).
           assert (Hwx : w <> x).
           { intros ->. destruct (last_in q u) as [Hx|Hx]; [apply Hwu; symmetry; exact Hx|].
             unfold q in Hx at 2. apply filter_In in Hx. destruct Hx as [_ Hx]. fold q x in Hx.
             unfold ne in Hx. rewrite Hzw in Hx. discriminate. }
           cbn. rewrite !upd_other by auto. apply Iemp; auto.
    + split; [|exact Eev]. apply Gen; try reflexivity.
      * cbn [app].
        assert (Efil2 : filter (ne s1) (dr ++ [cur]) = q).
        { rewrite filter_app, (Efil s1) by reflexivity. cbn [filter]. unfold ne.
          destruct (Nat.eqb_spec (i_size s1 cur) 0); [cbn; apply app_nil_r|lia]. }
        rewrite Efil2. auto.
      * intros w [Hw|Hw].
        -- apply Iitn. left. intros Hi. apply Hw. apply in_or_app. left. exact Hi.
        -- apply Iitn. right. exact Hw.
      * intros w Hw Hwu Hz. apply in_app_or in Hw. destruct Hw as [Hw|[<-|[]]].
        -- change (i_itn s1 w) with (i_itn s w). change (i_itp s1 w) with (i_itp s w).
           apply Iemp; auto. rewrite <- Hsz; auto. intros ->. contradiction.
        -- cbn. split; [|exact Eip]. apply Iitn. left. exact Hcd.
Qed.

Record rs_ok (s0 s' : ina) (u : nat) (l : list nat) : Prop := {
  ro_next : i_next s' = i_next s0;
  ro_prev : i_prev s' = i_prev s0;
  ro_tail : i_tail s' = i_tail s0;
  ro_head : i_head s' = i_head s0;
  ro_ent : i_ent s' = i_ent s0;
  ro_size : forall w, In w (u :: l) -> i_size s' w = i_size s0 w + kof s0 w;
  ro_ver : forall w, In w (u :: l) -> i_ver s' w = (i_ver s0 w - 1)%Z;
  ro_deg : forall w, w <> u -> i_deg s' w = i_deg s0 w;
  ro_degu : i_deg s' u = (i_deg s0 u + sumZ (fun w => Z.of_nat (kof s0 w)) (u :: l))%Z;
  ro_it : seg (i_itn s') (i_itp s') u (filter (ne s') l) u;
  ro_empty : forall w, In w l -> i_size s' w = 0 -> i_itn s' w = w /\ i_itp s' w = w;
  ro_frame : forall w, ~ In w (u :: l) -> i_size s' w = i_size s0 w /\ i_ver s' w = i_ver s0 w /\
    i_itn s' w = i_itn s0 w /\ i_itp s' w = i_itp s0 w }.

Lemma rs_finish s0 s u l lst : NoDup (u :: l) ->
  (forall w, In w l -> i_size s0 w = 0 -> i_itn s0 w = w /\ i_itp s0 w = w) ->
  rs_inv s0 s u l (u :: l) lst -> rs_ok s0 (rs_fin s u lst) u l.
Proof.
  intros ND Hem J. destruct J as [In1 Ip It Ih Ie Itodo Idone Id Idu [Elst Ips] Iitn Iemp].
  rewrite Elst. unfold rs_fin. set (q := filter (ne s) l) in *. set (x := last q u) in *.
  assert (Hul : ~ In u l) by (apply NoDup_cons_iff in ND; apply ND).
  assert (NDq : NoDup (u :: q)) by (apply NoDup_cons_filter; exact ND).
  split; try (cbn; assumption).
  - intros w Hw. cbn. apply Idone. exact Hw.
  - intros w Hw. cbn. apply Idone. exact Hw.
  - change (filter (ne _) l) with q. apply pseg_close. cbn. fold x. split; [|split].
    + apply (pseg_ext (i_itn s) (i_itp s)); auto.
      * intros w Hw Hne. apply upd_other. exact Hne.
      * intros w Hw. apply upd_other. intros ->. apply NoDup_cons_iff in NDq. apply NDq. exact Hw.
    + apply upd_same.
    + apply upd_same.
  - intros w Hw Hz. cbn in Hz. cbn.
    assert (Hwu : w <> u) by (intros ->; contradiction).
    assert (Hwx : w <> x).
    { intros ->. destruct (last_in q u) as [Hx|Hx]; [apply Hwu; symmetry; exact Hx|].
      unfold q in Hx at 2. apply filter_In in Hx. destruct Hx as [_ Hx]. fold q x in Hx.
      unfold ne in Hx. rewrite Hz in Hx. discriminate. }
    rewrite !upd_other by auto.
    destruct (Iemp w) as [A B]; [right; exact Hw|exact Hwu|exact Hz|].
    rewrite A, B. apply Hem; [exact Hw|].
    destruct (Idone w) as [_ X]; [right; exact Hw|]. lia.
  - intros w Hw. destruct (Itodo w Hw) as (A & B & C). cbn.
    assert (Hx : In x (u :: l)) by (apply (@in_filter_ring (ne s)); apply last_in).
    assert (w <> x) by (intros ->; contradiction).
    assert (w <> u) by (intros ->; apply Hw; left; reflexivity).
    rewrite !upd_other by auto. rewrite A, B, C. repeat split.
    apply Iitn. left. exact Hw.
Qed.

Lemma rs_chain_ok s0 u l : seg (i_next s0) (i_prev s0) u l u -> NoDup (u :: l) ->
  (forall w, In w (u :: l) -> In (i_itp s0 w) (u :: l) -> i_itn s0 (i_itp s0 w) = w) ->
  (forall w, In w l -> i_size s0 w = 0 -> i_itn s0 w = w /\ i_itp s0 w = w) ->
  forall todo fuel s done cur lst evs, u :: l = done ++ cur :: todo -> length todo <= fuel ->
  rs_inv s0 s u l done lst -> evs = flat_map (evof s0) done ->
  rs_ok s0 (fst (rs_chain fuel s u cur lst evs)) u l /\
  snd (rs_chain fuel s u cur lst evs) = flat_map (evof s0) (u :: l).
Proof.
  intros Hring ND Hweak Hem. induction todo as [|y todo IH]; intros fuel s done cur lst evs E Hf J Ee.
  - pose proof (rs_step s0 s u l done cur [] lst ND E Hweak J) as St.
    rewrite rs_chain_eq. destruct (rs_body s u cur lst) as [s2 lst2]. destruct St as [St Ev].
    assert (En : i_next s2 cur = u).
    { rewrite (rs_next _ _ _ _ _ _ St). apply (ring_next _ _ _ _ _ _ _ Hring E). }
    assert (X : match fuel with
      | 0 => (rs_fin s2 u lst2, evs ++ evof s cur)
      | S f => if i_next s2 cur =? u then (rs_fin s2 u lst2, evs ++ evof s cur)
           else rs_chain f s2 u (i_next s2 cur) lst2 (evs ++ evof s cur) end
      = (rs_fin s2 u lst2, evs ++ evof s cur)).
    { destruct fuel; [reflexivity|]. rewrite En, Nat.eqb_refl. reflexivity. }
    cbv zeta. rewrite X. cbn [fst snd]. split.
    + apply rs_finish; auto. rewrite E. exact St.
    + rewrite E, Ev, Ee, flat_map_app. cbn. rewrite app_nil_r. reflexivity.
  - pose proof (rs_step s0 s u l done cur (y :: todo) lst ND E Hweak J) as St.
    destruct fuel as [|f]; [cbn in Hf; lia|].
    rewrite rs_chain_eq. destruct (rs_body s u cur lst) as [s2 lst2]. destruct St as [St Ev].
    assert (En : i_next s2 cur = y).
    { rewrite (rs_next _ _ _ _ _ _ St). apply (ring_next _ _ _ _ _ _ _ Hring E). }
    cbv zeta. rewrite En.
    assert (Hyu : y <> u).
    { intros ->. destruct done as [|z done]; cbn in E; injection E as E1 E2; subst.
      - apply NoDup_cons_iff in ND. apply ND. left. reflexivity.
      - apply NoDup_cons_iff in ND. apply ND. apply in_or_app. right. right. left. reflexivity. }
    destruct (Nat.eqb_spec y u); [contradiction|].
    apply (IH f s2 (done ++ [cur]) y).
    + rewrite <- app_assoc. exact E.
    + cbn in Hf. lia.
    + exact St.
    + rewrite Ev, Ee, flat_map_app. cbn. rewrite app_nil_r. reflexivity.
Qed.

Lemma restore_ok fuel s u l : seg (i_next s) (i_prev s) u l u -> NoDup (u :: l) ->
  (forall w, In w (u :: l) -> In (i_itp s w) (u :: l) -> i_itn s (i_itp s w) = w) ->
  (forall w, In w l -> i_size s w = 0 -> i_itn s w = w /\ i_itp s w = w) ->
  length l <= fuel ->
  rs_ok s (fst (restoreIncidentNets fuel s u)) u l /\
  snd (restoreIncidentNets fuel s u) = flat_map (evof s) (u :: l).
Proof.
  intros Hring ND Hweak Hem Hf. unfold restoreIncidentNets.
  apply (rs_chain_ok s u l Hring ND Hweak Hem l fuel s [] u); auto.
  split; auto; try (intros w []); cbn; try lia.
Qed.

(** ** the iterator *)
Definition ents (s : ina) (w : nat) : list nat := map fst (firstn (i_size s w) (i_ent s w)).
Lemma it_walk_ok s u : forall q fuel a,
  seg (i_itn s) (i_itp s) a q u -> NoDup (a :: q) -> i_head s u = true ->
  (forall w, In w q -> i_head s w = false) -> length q <= fuel ->
  it_walk fuel s a = ents s a ++ flat_map (ents s) q.
Proof.
  induction q as [|x q IH]; intros fuel a H ND Hh Hq Hf.
  - cbn [seg] in H. destruct H as [H _]. destruct fuel; cbn [it_walk flat_map]; [reflexivity|].
    rewrite H, Hh. reflexivity.
  - cbn [seg] in H. destruct H as (E1 & E2 & H). destruct fuel as [|f]; [cbn in Hf; lia|].
    cbn [it_walk flat_map]. fold (ents s a). rewrite E1, (Hq x) by (left; reflexivity).
    pose proof ND as X. apply NoDup_cons_iff in X. destruct X as [Hn ND'].
    destruct (Nat.eqb_spec x a) as [->|]; [exfalso; apply Hn; left; reflexivity|]. cbn [orb].
    rewrite (IH f x); auto.
    + intros w Hw. apply Hq. right. exact Hw.
    + cbn in Hf. lia.
Qed.
Lemma ents_filter s l : flat_map (ents s) (filter (ne s) l) = flat_map (ents s) l.
Proof.
  induction l as [|x l IH]; [reflexivity|]. cbn [filter flat_map].
  unfold ne at 1. destruct (Nat.eqb_spec (i_size s x) 0) as [E|E]; cbn [negb flat_map].
  - rewrite IH. unfold ents at 2. rewrite E. reflexivity.
  - rewrite IH. reflexivity.
Qed.
