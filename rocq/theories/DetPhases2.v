(** DetPhases2.v - loops 3 to 5 of the deterministic coarsener: closed forms of their effects, independent of the schedule. *)
From Coq Require Import FunctionalExtensionality.
From Verif Require Import Base Spec ParLoop DetCoarse DetPhases.
Set Default Proof Using "All".

Section Phases2.
Variables (H : hypergraph) (p : dparams).
Local Notation w := (nw H).

(** ** Loop 3 *)
Section L3.
Variables (P : nat -> nat) (O : nat -> Z).
Definition light (t : nat) : bool := O t <=? maxw p.
Definition mv (u : nat) : bool := negb (Nat.eqb (P u) u).
Definition own3 (l : l3) : nat := match l with A0 u => u | A1 u _ => u | A2 u _ => u | A3 u _ => u | AD u => u end.
Definition tail3 (u t : nat) (c : dcore) : dcore := set_cwt (set_clu c (upd (clu c) u t)) (upd (cwt c) t (O t)).
Definition bump3 (u : nat) (c : dcore) : dcore := if O u =? w u then set_cnt c (cnt c + 1) else set_fixl c (push (fixl c) u).
Definition bumph (u : nat) (c : dcore) : dcore := if O u =? w u then c else set_fixl c (push (fixl c) u).
Definition rest3 (l : l3) (c : dcore) : dcore :=
  match l with
  | A0 u => if mv u then
              if light (P u) then tail3 u (P u) (bump3 u c)
              else let c1 := bumph u c in set_hvy c1 (push (hvy c1) u)
            else c
  | A1 u t => tail3 u t c
  | A2 u t => tail3 u t c
  | A3 u t => set_cwt c (upd (cwt c) t (O t))
  | AD _ => c
  end.
Definition inv3 (ls : list l3) (s : dst) : Prop := NoDup (map own3 ls) /\ prop (fst s) = P /\ opp (fst s) = O.
Lemma step3_ok a l b s l' s' : inv3 (a ++ l :: b) s -> step3 H p l s = Some (l', s') ->
  inv3 (a ++ l' :: b) s' /\ rest3 l (fst s) = rest3 l' (fst s').
Proof.
  intros [ND [EP EO]] E. destruct s as [c f]. cbn [fst] in EP, EO.
  assert (Q : forall l0 s0, own3 l0 = own3 l -> prop (fst s0) = P -> opp (fst s0) = O -> inv3 (a ++ l0 :: b) s0).
  { intros l0 s0 Eo E1 E2. split; [rewrite (own_eq own3 a l) by exact Eo; exact ND|split; assumption]. }
  destruct l as [u|u t|u t|u t|u]; cbn [step3] in E; rewrite ?EP, ?EO in E.
  - cbn [rest3]. unfold mv. destruct (Nat.eqb_spec (P u) u) as [Eq|Ne]; [inversion E; subst l' s'; split; [apply Q|]; auto|].
    cbn [negb]. unfold light. destruct (O (P u) <=? maxw p) eqn:G.
    + unfold bump3. destruct (O u =? w u); inversion E; subst l' s'; (split; [apply Q; auto|reflexivity]).
    + unfold bumph. inversion E; subst l' s'. destruct (O u =? w u); (split; [apply Q; auto|reflexivity]).
  - inversion E; subst l' s'. split; [apply Q; auto|reflexivity].
  - inversion E; subst l' s'. split; [apply Q; auto|]. reflexivity.
  - inversion E; subst l' s'. split; [apply Q; auto|reflexivity].
  - discriminate.
Qed.
(** The effect of an iteration: one write to clusters[u], writes of the constants O, increments. *)
Definition nf3 (u : nat) (ct : option nat) (wt : option nat) (k : Z) (nf nh : bool) (c : dcore) : dcore :=
  mkDC (match ct with Some t => upd (clu c) u t | None => clu c end)
       (match wt with Some t => upd (cwt c) t (O t) | None => cwt c end)
       (opp c) (prop c) (if nh then push (hvy c) u else hvy c) (if nf then push (fixl c) u else fixl c) (cnt c + k) (num c) (oob c).
Lemma rest3_nf l : exists ct wt k nf nh, forall c, rest3 l c = nf3 (own3 l) ct wt k nf nh c.
Proof.
  assert (Z0 : forall c, c = nf3 (own3 l) None None 0 false false c) by (intros c; apply dc_eq; cbn; try reflexivity; lia).
  assert (T3 : forall u t, own3 l = u -> exists ct wt k nf nh, forall c, tail3 u t c = nf3 (own3 l) ct wt k nf nh c).
  { intros u t <-. exists (Some t), (Some t), 0, false, false. intros c. apply dc_eq; cbn; try reflexivity; lia. }
  destruct l as [u|u t|u t|u t|u]; cbn [rest3 own3] in *.
  - destruct (mv u); [|exists None, None, 0, false, false; exact Z0]. destruct (light (P u)).
    + unfold bump3. destruct (O u =? w u).
      * exists (Some (P u)), (Some (P u)), 1, false, false. intros c. apply dc_eq; cbn; reflexivity.
      * exists (Some (P u)), (Some (P u)), 0, true, false. intros c. apply dc_eq; cbn; try reflexivity; lia.
    + unfold bumph. destruct (O u =? w u).
      * exists None, None, 0, false, true. intros c. apply dc_eq; cbn; try reflexivity; lia.
      * exists None, None, 0, true, true. intros c. apply dc_eq; cbn; try reflexivity; lia.
  - apply T3; reflexivity.
  - apply T3; reflexivity.
  - exists None, (Some t), 0, false, false. intros c. apply dc_eq; cbn; try reflexivity; lia.
  - exists None, None, 0, false, false. exact Z0.
Qed.
Lemma comm3 l m x : own3 l <> own3 m -> rest3 l (rest3 m x) = rest3 m (rest3 l x).
Proof.
  intros Ne. destruct (rest3_nf l) as (ct & wt & k & nf & nh & El), (rest3_nf m) as (ct' & wt' & k' & nf' & nh' & Em).
  rewrite !El, !Em. apply dc_eq; cbn; try reflexivity; try lia.
  - destruct ct, ct'; try reflexivity. fx. unfold upd. eqbs; congruence.
  - destruct wt, wt'; try reflexivity. fx. unfold upd. eqbs; congruence.
  - destruct nh, nh'; try reflexivity. fx. unfold push, upd. eqbs; congruence.
  - destruct nf, nf'; try reflexivity. fx. unfold push, upd. eqbs; congruence.
Qed.
Definition cl3 (rng : list nat) (c : dcore) : dcore :=
  mkDC (fun x => if mem x rng && mv x && light (P x) then P x else clu c x)
       (fun t => if light t && existsb (fun u => mv u && Nat.eqb (P u) t) rng then O t else cwt c t)
       (opp c) (prop c)
       (fun x => if mv x && negb (light (P x)) then (hvy c x + count_occ Nat.eq_dec rng x)%nat else hvy c x)
       (fun x => if mv x && negb (O x =? w x) then (fixl c x + count_occ Nat.eq_dec rng x)%nat else fixl c x)
       (cnt c + sumZ (fun u => if mv u && light (P u) && (O u =? w u) then 1 else 0) rng) (num c) (oob c).
Lemma count_cons u rng y : count_occ Nat.eq_dec (u :: rng) y = ((if Nat.eqb y u then 1 else 0) + count_occ Nat.eq_dec rng y)%nat.
Proof using. cbn. destruct (Nat.eq_dec u y) as [->|N]; [rewrite Nat.eqb_refl; reflexivity|]. destruct (Nat.eqb_spec y u); [congruence|reflexivity]. Qed.
Lemma fold3 : forall rng c, fold_right rest3 c (map A0 rng) = cl3 rng c.
Proof.
  induction rng as [|u rng IH]; intros c; cbn [map fold_right].
  - apply dc_eq; cbn; try reflexivity; try (fx; rewrite ?andb_false_r; try reflexivity); try lia;
      match goal with |- context[if ?b then _ else _] => destruct b end; lia.
  - rewrite IH. clear IH. cbn [rest3]. destruct (mv u) eqn:M; [destruct (light (P u)) eqn:L|].
    + unfold bump3, tail3. destruct (O u =? w u) eqn:G; apply dc_eq;
        cbn [cl3 clu cwt opp prop hvy fixl cnt num oob set_cnt set_fixl set_clu set_cwt set_hvy mem existsb sumZ]; try reflexivity.
      all: first
        [ solve [fx; unfold upd; destruct (Nat.eqb_spec y u) as [->|N]; [rewrite M, L; reflexivity|reflexivity]]
        | solve [fx; fold (mem y rng); destruct (Nat.eqb_spec y u) as [->|N]; [rewrite M, L; cbn; rewrite ?andb_false_r; reflexivity|reflexivity]]
        | solve [fx; unfold upd; rewrite M; cbn [andb]; rewrite (Nat.eqb_sym (P u) y); destruct (Nat.eqb_spec y (P u)) as [->|N]; [rewrite L|]; reflexivity]
        | solve [fx; rewrite M; cbn [andb]; rewrite (Nat.eqb_sym (P u) y); destruct (Nat.eqb_spec y (P u)) as [->|N]; [rewrite L|]; reflexivity]
        | solve [fx; rewrite count_cons; unfold push, upd; destruct (Nat.eqb_spec y u) as [->|N]; [rewrite ?M, ?L, ?G; cbn [andb negb]; lia|reflexivity]]
        | solve [fx; rewrite count_cons; destruct (Nat.eqb_spec y u) as [->|N]; [rewrite ?M, ?L, ?G; cbn [andb negb]; lia|reflexivity]]
        | solve [rewrite M, L, ?G; cbn [andb]; lia] ].
    + unfold bumph. destruct (O u =? w u) eqn:G; apply dc_eq;
        cbn [cl3 clu cwt opp prop hvy fixl cnt num oob set_cnt set_fixl set_clu set_cwt set_hvy mem existsb sumZ]; try reflexivity.
      all: first
        [ solve [fx; unfold upd; destruct (Nat.eqb_spec y u) as [->|N]; [rewrite M, L; reflexivity|reflexivity]]
        | solve [fx; fold (mem y rng); destruct (Nat.eqb_spec y u) as [->|N]; [rewrite M, L; cbn; rewrite ?andb_false_r; reflexivity|reflexivity]]
        | solve [fx; unfold upd; rewrite M; cbn [andb]; rewrite (Nat.eqb_sym (P u) y); destruct (Nat.eqb_spec y (P u)) as [->|N]; [rewrite L|]; reflexivity]
        | solve [fx; rewrite M; cbn [andb]; rewrite (Nat.eqb_sym (P u) y); destruct (Nat.eqb_spec y (P u)) as [->|N]; [rewrite L|]; reflexivity]
        | solve [fx; rewrite count_cons; unfold push, upd; destruct (Nat.eqb_spec y u) as [->|N]; [rewrite ?M, ?L, ?G; cbn [andb negb]; lia|reflexivity]]
        | solve [fx; rewrite count_cons; destruct (Nat.eqb_spec y u) as [->|N]; [rewrite ?M, ?L, ?G; cbn [andb negb]; lia|reflexivity]]
        | solve [rewrite M, L, ?G; cbn [andb]; lia] ].
    + apply dc_eq; cbn [cl3 clu cwt opp prop hvy fixl cnt num oob mem existsb sumZ]; try reflexivity.
      all: try (fx; rewrite ?count_cons; fold (mem y rng); rewrite ?M; cbn [andb orb]).
      all: try (destruct (Nat.eqb_spec y u) as [->|N]; rewrite ?M; cbn [andb orb]; rewrite ?andb_false_r; reflexivity).
      all: try reflexivity.
      rewrite M. cbn [andb]. lia.
Qed.
End L3.
Definition c3 (rng : list nat) (c : dcore) : dcore := cl3 (prop c) (opp c) rng c.
Theorem loop3 rng s s' : NoDup rng -> par (step3 H p) (map A0 rng) s s' -> fst s' = c3 rng (fst s) /\ (hasf p = false -> snd s' = snd s).
Proof.
  intros ND HP. split.
  - assert (HI : inv3 (prop (fst s)) (opp (fst s)) (map A0 rng) s).
    { split; [rewrite map_map; cbn; rewrite map_id; exact ND|split; reflexivity]. }
    unfold c3. rewrite <- fold3.
    apply (par_fold (step3 H p) fst (rest3 (prop (fst s)) (opp (fst s))) (inv3 (prop (fst s)) (opp (fst s)))); [| | |exact HP|exact HI].
    + intros a l b s0 l' s0'. apply step3_ok.
    + intros a l b m c s0 x [ND' _]. apply comm3. apply (own_neq own3 a l b m c ND').
    + intros a l b s0 x _ E. destruct s0 as [c f]. destruct l as [u|u t|u t|u t|u]; cbn [step3] in E; try discriminate; [|reflexivity].
      destruct (Nat.eqb _ u); [discriminate|]. destruct (_ <=? _); [|discriminate]. destruct (_ =? _); discriminate.
  - intros Hf. apply (par_preserves (step3 H p) (fun z => snd z = snd s)) with (2 := HP); [|reflexivity].
    intros l z l' z' Q E'. destruct z as [c f], z' as [cc ff]. cbn in Q |- *.
    destruct l as [u|u t|u t|u t|u]; cbn [step3] in E'; try discriminate.
    + destruct (Nat.eqb _ u); [congruence|]. destruct (_ <=? _); [|inversion E'; congruence]. destruct (_ =? _); inversion E'; congruence.
    + unfold fcontract in E'. rewrite Hf in E'. inversion E'; congruence.
    + inversion E'; congruence.
    + inversion E'; congruence.
Qed.

(** ** Loop 5 *)
Section L5.
Variable (C : nat -> nat).
Definition rest5 (l : l5) (c : dcore) : dcore :=
  match l with
  | F0 h => if Nat.eqb (C h) h then c else set_opp (set_cwt c (upd (cwt c) h (cwt c h - w h))) (upd (opp c) h (opp c h - w h))
  | F1 h => set_opp (set_cwt c (upd (cwt c) h (cwt c h - w h))) (upd (opp c) h (opp c h - w h))
  | F2 h => set_opp c (upd (opp c) h (opp c h - w h))
  | FD _ => c
  end.
Lemma step5_ok l s l' s' : clu (fst s) = C -> step5 H l s = Some (l', s') -> clu (fst s') = C /\ snd s' = snd s /\ rest5 l (fst s) = rest5 l' (fst s').
Proof.
  intros EC E. destruct s as [c f]. cbn [fst] in EC. destruct l as [h|h|h|h]; cbn [step5] in E; rewrite ?EC in E; cbn [rest5].
  - destruct (Nat.eqb (C h) h); inversion E; subst l' s'; auto.
  - inversion E; subst l' s'. auto.
  - inversion E; subst l' s'. auto.
  - discriminate.
Qed.
Lemma comm5 l m x : rest5 l (rest5 m x) = rest5 m (rest5 l x).
Proof.
  destruct l as [h|h|h|h], m as [g|g|g|g]; cbn [rest5]; repeat match goal with |- context[if Nat.eqb (C ?a) ?a then _ else _] => destruct (Nat.eqb (C a) a) end;
    try reflexivity; dceq.
Qed.
Lemma fold5 : forall fl c, fold_right rest5 c (map F0 fl) =
  set_opp (set_cwt c (fun x => cwt c x - Z.of_nat (count_occ Nat.eq_dec fl x) * (if Nat.eqb (C x) x then 0 else w x)))
    (fun x => opp c x - Z.of_nat (count_occ Nat.eq_dec fl x) * (if Nat.eqb (C x) x then 0 else w x)).
Proof.
  induction fl as [|h fl IH]; intros c; cbn [map fold_right].
  - apply dc_eq; cbn; try reflexivity; fx; lia.
  - rewrite IH. cbn [rest5]. destruct (Nat.eqb (C h) h) eqn:G; apply dc_eq; cbn [clu cwt opp prop hvy fixl cnt num oob set_cwt set_opp]; try reflexivity;
      fx; rewrite count_cons; unfold upd; destruct (Nat.eqb_spec y h) as [->|N]; rewrite ?G; lia.
Qed.
End L5.
Definition c5 (c : dcore) : dcore :=
  set_opp (set_cwt c (fun x => cwt c x - Z.of_nat (fixl c x) * (if Nat.eqb (clu c x) x then 0 else w x)))
    (fun x => opp c x - Z.of_nat (fixl c x) * (if Nat.eqb (clu c x) x then 0 else w x)).
Theorem loop5 fl s s' : content (fixl (fst s)) fl -> par (step5 H) (map F0 fl) s s' -> s' = (c5 (fst s), snd s).
Proof.
  intros HC HP.
  assert (E : fst s' = fold_right (rest5 (clu (fst s))) (fst s) (map F0 fl)).
  { apply (par_fold (step5 H) fst (rest5 (clu (fst s))) (fun _ z => clu (fst z) = clu (fst s))); [| | |exact HP|reflexivity].
    - intros a l b z l' z' Q E. destruct (step5_ok _ _ _ _ _ Q E) as [A [_ B]]. split; assumption.
    - intros a l b m c z x _. apply comm5.
    - intros a l b z x _ E. destruct z as [c f]. destruct l; cbn in E; try discriminate; [|reflexivity]. destruct (Nat.eqb _ _); discriminate. }
  rewrite fold5 in E. destruct s' as [c' f']. cbn [fst] in E. f_equal.
  - rewrite E. unfold c5. apply dc_eq; cbn; try reflexivity; fx; rewrite HC; reflexivity.
  - assert (G : clu (fst (c', f')) = clu (fst s) /\ snd (c', f') = snd s).
    { apply (par_preserves (step5 H) (fun z => clu (fst z) = clu (fst s) /\ snd z = snd s)) with (2 := HP); [|split; reflexivity].
      intros l z l' z' [Q1 Q2] E'. destruct (step5_ok _ _ _ _ _ Q1 E') as [A [B _]]. split; [exact A|congruence]. }
    apply G.
Qed.
End Phases2.
