(** DetThms.v - C62, C63: a pass of the deterministic coarsener does not depend on the schedule, and what its clustering guarantees. *)
From Coq Require Import FunctionalExtensionality.
From Verif Require Import Base Spec SpecLemmas ParLoop DetCoarse DetPhases DetPhases2 DetPhases3 DetCoarseThms DetInv.

(** The state after loops 1 and 2. *)
Definition c12 (H : hypergraph) (p : dparams) (rng : list nat) (c : dcore) (f : dfix) : dcore :=
  if swaps p then c2 H rng (c1 H p rng c f) else c1 H p rng c f.
Section Round.
Variables (H : hypergraph) (p : dparams).
Hypothesis WF : wf_hg H.
Hypothesis Wpos : forall x, In x (nodes H) -> 0 < nw H x.
Lemma c12_proposals rng pend c f : SI H p (rng ++ pend) c -> NoDup (rng ++ pend) ->
  proposals H p rng c f (prop (c12 H p rng c f)) (opp (c12 H p rng c f)) /\
  set_opp (set_prop c (prop (c12 H p rng c f))) (opp (c12 H p rng c f)) = c12 H p rng c f.
Proof using WF Wpos.
  intros HS ND. unfold c12. destruct (swaps p); (split; [|reflexivity]).
  - apply (proposals2 H p WF Wpos rng pend); assumption.
  - apply (proposals1 H p WF Wpos rng pend); assumption.
Qed.
(** The result of a sub-round as a function of the state and the sorted vector of loop 4. *)
Definition fin_core (rng : list nat) (c : dcore) (f : dfix) (hl : list nat) : dcore :=
  let k2 := c12 H p rng c f in let k3 := c3 H p rng k2 in
  sub_end (c5 H (cl4 H p hl (prop k2) (opp k2) (cwt k3) k3)).
Lemma sub_char rng pend s s' : SI H p (rng ++ pend) (fst s) -> NoDup (rng ++ pend) -> sub_round H p rng s s' ->
  exists hl, content (hvy (c3 H p rng (c12 H p rng (fst s) (snd s)))) hl /\
    StronglySorted (hlt H (prop (c12 H p rng (fst s) (snd s)))) hl /\
    fst s' = fin_core rng (fst s) (snd s) hl /\ (hasf p = false -> snd s' = snd s).
Proof using WF Wpos.
  intros HS ND (s1 & s2 & s3 & s4 & s5 & hl & fl & L1 & L2 & L3 & HC & HSo & L4 & HF & L5 & E).
  assert (NDg : NoDup rng) by (apply (NDrng rng pend ND)).
  apply loop1 in L1; [|exact NDg].
  assert (E2 : s2 = (c12 H p rng (fst s) (snd s), snd s)).
  { unfold c12. destruct (swaps p); [|congruence]. apply (loop2 H p) in L2; [|exact NDg]. rewrite L1 in L2. exact L2. }
  clear L1 L2. apply loop3 in L3; [|exact NDg]. destruct L3 as [L3 L3f]. rewrite E2 in L3, L3f. cbn [fst snd] in L3, L3f.
  set (k2 := c12 H p rng (fst s) (snd s)) in *. set (k3 := c3 H p rng k2) in *.
  rewrite L3 in HC, HSo.
  destruct (c12_proposals rng pend (fst s) (snd s) HS ND) as [PR EQ]. fold k2 in PR, EQ.
  change (prop k3) with (prop k2) in HSo.
  assert (HC' := HC). unfold k3 in HC'. rewrite <- EQ in HC' at 1.
  exists hl. split; [exact HC|]. split; [exact HSo|].
  destruct (loop4 H p hl (prop k2) (opp k2) (cwt k3)) with (s := s3) (s' := s4) as [L4' L4f]; try assumption.
  - apply (hl_nodup H p WF Wpos rng pend (fst s) (snd s) HS ND _ _ PR hl HC' HSo).
  - apply (hl_cont H p WF Wpos rng pend (fst s) (snd s) HS ND _ _ PR hl HC' HSo).
  - intros t G. pose proof (K1 H p WF Wpos rng pend (fst s) (snd s) HS ND _ _ PR hl HC' HSo t G) as K. rewrite EQ in K. exact K.
  - intros v Hv G. pose proof (K2 H p WF Wpos rng pend (fst s) (snd s) HS ND _ _ PR hl HC' HSo v Hv G) as K. rewrite EQ in K. exact K.
  - rewrite L3. reflexivity.
  - rewrite L3. reflexivity.
  - rewrite L3. reflexivity.
  - apply (loop5 H p fl s4 s5 HF) in L5. rewrite E, L5. cbn [fst snd]. rewrite L4', L3. split; [reflexivity|].
    intros Hf. rewrite (L4f Hf), (L3f Hf). reflexivity.
Qed.
Lemma sub_SI rng pend s s' : SI H p (rng ++ pend) (fst s) -> NoDup (rng ++ pend) -> sub_round H p rng s s' -> SI H p pend (fst s').
Proof using WF Wpos.
  intros HS ND R. destruct (sub_char rng pend s s' HS ND R) as (hl & HC & HSo & E & _).
  destruct (c12_proposals rng pend (fst s) (snd s) HS ND) as [PR EQ].
  pose proof (SI_next H p WF Wpos rng pend (fst s) (snd s) HS ND _ _ PR hl) as G. rewrite EQ in G. rewrite E. apply G; assumption.
Qed.
Lemma c12_perm rng rng' c f : Permutation rng rng' -> c12 H p rng c f = c12 H p rng' c f.
Proof using.
  intros HP. assert (E1 : c1 H p rng c f = c1 H p rng' c f).
  { unfold c1. cbn zeta. f_equal; [f_equal|]; apply functional_extensionality; intros x.
    - rewrite (perm_mem rng rng' x HP). reflexivity.
    - f_equal. apply sumZ_perm. exact HP. }
  unfold c12. rewrite E1. destruct (swaps p); [|reflexivity]. unfold c2. f_equal; [f_equal|]; apply functional_extensionality; intros x.
  - unfold prop2. rewrite (perm_mem rng rng' _ HP). reflexivity.
  - unfold opp2. rewrite (perm_mem rng rng' _ HP). reflexivity.
Qed.
Lemma c3_perm rng rng' c : Permutation rng rng' -> c3 H p rng c = c3 H p rng' c.
Proof using.
  intros HP. unfold c3, cl3. f_equal; try (apply functional_extensionality; intros x).
  - rewrite (perm_mem rng rng' x HP). reflexivity.
  - rewrite (perm_existsb _ rng rng' HP). reflexivity.
  - rewrite (perm_count rng rng' x HP). reflexivity.
  - rewrite (perm_count rng rng' x HP). reflexivity.
  - f_equal. apply sumZ_perm. exact HP.
Qed.
Lemma hlt_asym P a b : hlt H P a b -> ~ hlt H P b a.
Proof using. clear Wpos. unfold hlt. lia. Qed.
Lemma sub_det_core rng rng' pend pend' s s1 s2 : Permutation rng rng' ->
  SI H p (rng ++ pend) (fst s) -> NoDup (rng ++ pend) -> SI H p (rng' ++ pend') (fst s) -> NoDup (rng' ++ pend') ->
  sub_round H p rng s s1 -> sub_round H p rng' s s2 -> fst s1 = fst s2 /\ (hasf p = false -> snd s1 = snd s2).
Proof using WF Wpos.
  intros HP S1 N1 S2 N2 R1 R2.
  destruct (sub_char rng pend s s1 S1 N1 R1) as (hl & HC & HSo & E & Ef).
  destruct (sub_char rng' pend' s s2 S2 N2 R2) as (hl' & HC' & HSo' & E' & Ef').
  rewrite <- (c12_perm rng rng' _ _ HP) in HC', HSo'. rewrite <- (c3_perm rng rng' _ HP) in HC'.
  assert (EH : hl' = hl).
  { apply (ssorted_unique (hlt H (prop (c12 H p rng (fst s) (snd s)))) (hlt_asym _)); [|exact HSo'|exact HSo].
    apply (Permutation_count_occ Nat.eq_dec). intros x. rewrite HC, HC'. reflexivity. }
  split; [|intros Hf; rewrite (Ef Hf), (Ef' Hf); reflexivity].
  rewrite E, E', EH. unfold fin_core. rewrite <- (c12_perm rng rng' _ _ HP), <- (c3_perm rng rng' _ HP). reflexivity.
Qed.
Lemma sub_det rng rng' pend pend' s s1 s2 : Permutation rng rng' -> hasf p = false ->
  SI H p (rng ++ pend) (fst s) -> NoDup (rng ++ pend) -> SI H p (rng' ++ pend') (fst s) -> NoDup (rng' ++ pend') ->
  sub_round H p rng s s1 -> sub_round H p rng' s s2 -> s1 = s2.
Proof using WF Wpos.
  intros HP Hf S1 N1 S2 N2 R1 R2. destruct (sub_det_core rng rng' pend pend' s s1 s2 HP S1 N1 S2 N2 R1 R2) as [A B].
  rewrite (surjective_pairing s1), (surjective_pairing s2), A, (B Hf). reflexivity.
Qed.
Lemma pass_SI limit rngs s s' : pass H p limit rngs s s' -> SI H p (concat rngs) (fst s) -> NoDup (concat rngs) ->
  exists pend, SI H p pend (fst s').
Proof using WF Wpos.
  induction 1 as [s|r rs s L|r rs s s' s'' L R HP IH]; intros HS ND; [exists (concat []); exact HS|exists (concat (r :: rs)); exact HS|].
  cbn [concat] in HS, ND. apply IH.
  - apply (sub_SI r _ s s' HS ND R).
  - clear - ND. induction r as [|a r IH]; [exact ND|]. cbn in ND. inversion ND; auto.
Qed.
Lemma ND_tail (r l : list nat) : NoDup (r ++ l) -> NoDup l.
Proof using. induction r as [|a r IH]; intros ND; [exact ND|]. cbn in ND. inversion ND; auto. Qed.
Lemma pass_det limit : forall rngs s s1, pass H p limit rngs s s1 -> forall rngs' s2, Forall2 (@Permutation nat) rngs rngs' -> hasf p = false ->
  SI H p (concat rngs) (fst s) -> NoDup (concat rngs) -> SI H p (concat rngs') (fst s) -> NoDup (concat rngs') ->
  pass H p limit rngs' s s2 -> s1 = s2.
Proof using WF Wpos.
  induction 1 as [s|r rs s L|r rs s s' s'' L R HP IH]; intros rngs' s2 F Hf S1 N1 S2 N2 P2; inversion F as [|? r' ? rs' Pr F']; subst.
  - inversion P2; subst. reflexivity.
  - inversion P2; subst; [reflexivity|lia].
  - inversion P2 as [|? ? ? L2|? ? ? t ? L2 R2 P2']; subst; [lia|]. cbn [concat] in *.
    assert (E : s' = t) by (apply (sub_det r r' (concat rs) (concat rs') s s' t Pr Hf); assumption). subst t.
    apply (IH rs'); try assumption.
    + apply (sub_SI r _ s s' S1 N1 R).
    + apply (ND_tail r _ N1).
    + apply (sub_SI r' _ s s' S2 N2 R2).
    + apply (ND_tail r' _ N2).
Qed.
Lemma SI_init f pend : incl pend (nodes H) -> SI H p pend (fst (det_init H f)).
Proof using WF Wpos.
  intros Hi. pose proof (wf_nodes H WF) as ND.
  assert (EM : forall x, In x (nodes H) -> members H (fst (det_init H f)) x = [x]).
  { intros x Hx. unfold members. cbn [clu det_init fst]. revert ND Hx. generalize (nodes H). induction l as [|a l IHl]; intros ND Hx; [destruct Hx|].
    inversion ND as [|? ? Ha ND']; subst. cbn. destruct (Nat.eqb_spec a x) as [->|Ne].
    - f_equal. clear - Ha. induction l as [|b l IH]; [reflexivity|]. cbn. destruct (Nat.eqb_spec b x) as [->|]; [exfalso; apply Ha; left; reflexivity|].
      apply IH. intros Hx. apply Ha. right. exact Hx.
    - apply IHl; [exact ND'|]. destruct Hx as [->|Hx]; [contradiction|exact Hx]. }
  constructor; try reflexivity.
  - intros x Hx. exact Hx.
  - intros x Hx. change (clu (fst (det_init H f)) x) with x. unfold cweight. rewrite (EM x Hx). change (cwt (fst (det_init H f)) x) with (nw H x).
    change (opp (fst (det_init H f)) x) with (nw H x). cbn. split; lia.
  - intros u Hu. split; [apply Hi; exact Hu|split; reflexivity].
  - change (num (fst (det_init H f))) with (Z.of_nat (length (nodes H))).
    transitivity (sumZ (fun _ => 1) (nodes H)).
    + clear. induction (nodes H) as [|a l IH]; [reflexivity|]. cbn [length]. rewrite Nat2Z.inj_succ, IH. change (sumZ (fun _ : nat => 1) (a :: l)) with (1 + sumZ (fun _ : nat => 1) l). lia.
    + apply sumZ_ext. intros t Ht. assert (E : nonempty H (fst (det_init H f)) t = true).
      { unfold nonempty. apply existsb_exists. exists t. split; [exact Ht|apply Nat.eqb_refl]. }
      rewrite E. reflexivity.
  - intros x Hx. right. apply EM. exact Hx.
  - intros x b _ Hx E. exact E.
  - intros v u E Ne. cbn in E. congruence.
Qed.
End Round.

(** ** C62: the clustering is a function of the input, not of the schedule. *)
Theorem C62_pass_deterministic : forall H p limit rngs rngs' f s1 s2,
  wf_hg H -> (forall x, In x (nodes H) -> 0 < nw H x) ->
  NoDup (concat rngs) -> incl (concat rngs) (nodes H) ->
  Forall2 (@Permutation nat) rngs rngs' -> hasf p = false ->
  pass H p limit rngs (det_init H f) s1 -> pass H p limit rngs' (det_init H f) s2 ->
  (forall u, clu (fst s1) u = clu (fst s2) u) /\ num (fst s1) = num (fst s2).
Proof.
  intros H p limit rngs rngs' f s1 s2 WF Wpos ND Hi F Hf P1 P2.
  assert (HP : Permutation (concat rngs) (concat rngs')).
  { clear - F. induction F as [|r r' rs rs' Pr F IH]; [constructor|]. cbn. apply Permutation_app; assumption. }
  assert (E : s1 = s2).
  { apply (pass_det H p WF Wpos limit rngs (det_init H f) s1 P1 rngs' s2 F Hf); try assumption.
    - apply SI_init; assumption.
    - apply SI_init; [assumption|assumption|]. intros x Hx. apply Hi. apply (Permutation_in x (Permutation_sym HP) Hx).
    - apply (Permutation_NoDup HP ND). }
  rewrite E. split; reflexivity.
Qed.

(** With fixed vertices this is true of passes with one sub-round only (C62_refuted_fixed_vertices in DetExamples.v). *)
Theorem C62_one_subround_deterministic : forall H p limit r r' f s1 s2,
  wf_hg H -> (forall x, In x (nodes H) -> 0 < nw H x) -> NoDup r -> incl r (nodes H) -> Permutation r r' ->
  pass H p limit [r] (det_init H f) s1 -> pass H p limit [r'] (det_init H f) s2 ->
  (forall u, clu (fst s1) u = clu (fst s2) u) /\ num (fst s1) = num (fst s2).
Proof.
  intros H p limit r r' f s1 s2 WF Wpos ND Hi HP P1 P2.
  assert (Hi' : incl r' (nodes H)) by (intros x Hx; apply Hi, (Permutation_in x (Permutation_sym HP) Hx)).
  assert (E : fst s1 = fst s2).
  { inversion P1 as [|? ? ? L1|? ? ? t1 ? L1 R1 Q1]; subst; inversion P2 as [|? ? ? L2|? ? ? t2 ? L2 R2 Q2]; subst; [reflexivity|lia|lia|].
    inversion Q1; inversion Q2; subst. apply (sub_det_core H p WF Wpos r r' [] [] (det_init H f) s1 s2 HP); try assumption.
    - rewrite app_nil_r. apply SI_init; assumption.
    - rewrite app_nil_r. exact ND.
    - rewrite app_nil_r. apply SI_init; assumption.
    - rewrite app_nil_r. apply (Permutation_NoDup HP ND). }
  rewrite E. split; reflexivity.
Qed.

(** ** C63: what every pass guarantees, with and without fixed vertices. *)
Definition cluster_of (H : hypergraph) (cl : nat -> nat) (t : nat) : list nat := filter (fun x => Nat.eqb (cl x) t) (nodes H).
Lemma count_clusters (N : list nat) (cl : nat -> nat) : NoDup N -> (forall x, In x N -> In (cl x) N) ->
  sumZ (fun t => Z.b2z (existsb (fun x => Nat.eqb (cl x) t) N)) N = Z.of_nat (length (nodup Nat.eq_dec (map cl N))).
Proof.
  intros ND Hc. transitivity (Z.of_nat (length (filter (fun t => existsb (fun x => Nat.eqb (cl x) t) N) N))).
  - rewrite length_filter_sum. reflexivity.
  - f_equal. apply Permutation_length. apply NoDup_Permutation; [apply NoDup_filter_; exact ND|apply NoDup_nodup|].
    intros t. rewrite filter_In, nodup_In, existsb_exists, in_map_iff. split.
    + intros [_ [x [Hx E]]]. exists x. apply Nat.eqb_eq in E. auto.
    + intros [x [E Hx]]. split; [rewrite <- E; apply Hc; exact Hx|]. exists x. split; [exact Hx|apply Nat.eqb_eq; exact E].
Qed.
Theorem C63_pass_valid : forall H p limit rngs f s,
  wf_hg H -> (forall x, In x (nodes H) -> 0 < nw H x) ->
  NoDup (concat rngs) -> incl (concat rngs) (nodes H) ->
  pass H p limit rngs (det_init H f) s ->
  let cl := clu (fst s) in
  (forall x, In x (nodes H) -> In (cl x) (nodes H) /\ com p (cl x) = com p x) /\
  (forall x, In x (nodes H) -> sumZ (nw H) (cluster_of H cl (cl x)) <= maxw p \/ cluster_of H cl (cl x) = [x]) /\
  num (fst s) = Z.of_nat (length (nodup Nat.eq_dec (map cl (nodes H)))) /\
  (forall x b, hasf p = true -> In x (nodes H) -> fblk p x = Some b -> fblk p (cl x) = Some b) /\
  oob (fst s) = false.
Proof.
  intros H p limit rngs f s WF Wpos ND Hi HP cl.
  destruct (pass_SI H p WF Wpos limit rngs _ _ HP (SI_init H p WF Wpos f _ Hi) ND) as [pend S].
  split; [intros x Hx; split; [apply (si_clu _ _ _ _ S x Hx)|apply (si_com _ _ _ _ S x Hx)]|].
  split; [|split; [|split]].
  - intros x Hx. destruct (si_max _ _ _ _ S x Hx) as [M|M]; [left; exact M|]. right.
    change (cluster_of H cl (cl x)) with (members H (fst s) (clu (fst s) x)).
    assert (Hm : In x (members H (fst s) (clu (fst s) x))) by (apply filter_In; rewrite Nat.eqb_refl; auto).
    rewrite M in Hm. destruct Hm as [E|[]]. rewrite M, E. reflexivity.
  - rewrite (si_num _ _ _ _ S). apply count_clusters; [apply (wf_nodes H WF)|]. intros x Hx. apply (si_clu _ _ _ _ S x Hx).
  - intros x b Hf Hx Eb. apply (si_fix _ _ _ _ S x b Hf Hx Eb).
  - apply (si_oob _ _ _ _ S).
Qed.
