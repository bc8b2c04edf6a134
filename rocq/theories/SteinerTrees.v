(** SteinerTrees.v - combinatorics of connecting edge sets (proof device only: no modelling here).
    Rooted trees [stree], growing a tree out of a connecting edge set, and the junction decomposition of Dreyfus and Wagner. *)
From Verif Require Import Base TargetSpec TargetGraph.

Lemma joined_trans L u v w : joined L u v -> joined L v w -> joined L u w.
Proof. intros A B. induction B; [exact A|]. econstructor; eassumption. Qed.
Lemma joined_edge L x y a : In (x, y, a) L \/ In (y, x, a) L -> joined L x y.
Proof. intros I. econstructor; [constructor|exact I]. Qed.
Lemma joined_sym L u v : joined L u v -> joined L v u.
Proof.
  intros A. induction A as [|x y a A IH I]; [constructor|]. eapply joined_trans; [|exact IH]. apply (joined_edge L y x a). tauto.
Qed.
Lemma joined_incl L L' u v : incl L L' -> joined L u v -> joined L' u v.
Proof. intros I A. induction A as [|x y a A IH E]; [constructor|]. econstructor; [exact IH|]. destruct E; [left|right]; apply I; eassumption. Qed.
Lemma connects_hub L (S : nat -> Prop) h : (forall x, S x -> joined L h x) -> connects L S.
Proof. intros A x y Sx Sy. eapply joined_trans; [apply joined_sym, A, Sx|apply A, Sy]. Qed.

Lemma weight_app L1 L2 : weight (L1 ++ L2) = weight L1 + weight L2.
Proof. apply sumZ_app. Qed.
Lemma weight_nonneg n G L : target n G -> incl L G -> 0 <= weight L.
Proof. intros TG I. apply sumZ_nonneg. intros [[u v] a] Ha. unfold wt. cbn. apply (tg_nonneg _ _ TG u v). apply I, Ha. Qed.

Lemma walk_edges G u v w : walk G u v w -> exists L, incl L G /\ joined L u v /\ weight L = w.
Proof.
  intros W. induction W as [u|u x v a b I W IH].
  - exists []. split; [intros e []|]. split; [constructor|reflexivity].
  - destruct IH as (L & A & B & C). exists ((u, x, a) :: L). split; [intros e [<-|He]; [exact I|apply A, He]|]. split.
    + eapply joined_trans; [apply (joined_edge _ u x a); left; left; reflexivity|]. eapply joined_incl; [|exact B]. intros e He. right; exact He.
    + unfold weight in *. cbn [sumZ]. rewrite C. reflexivity.
Qed.

(** ** Rooted trees of the graph: root, list of covered nodes, weight *)
Inductive stree (G : list arc) : nat -> list nat -> Z -> Prop :=
| st_root v : stree G v [v] 0
| st_edge v u a D w : In (v, u, a) G -> stree G u D w -> stree G v (v :: D) (a + w)
| st_join v D1 D2 w1 w2 : stree G v D1 w1 -> stree G v D2 w2 -> stree G v (D1 ++ D2) (w1 + w2).

Lemma stree_root G v D w : stree G v D w -> In v D.
Proof. intros T. induction T; [left; reflexivity|left; reflexivity|apply in_or_app; left; assumption]. Qed.

Lemma stree_nonneg n G v D w : target n G -> stree G v D w -> 0 <= w.
Proof. intros TG T. induction T as [v|v u a D w I T IH|v D1 D2 w1 w2 T1 IH1 T2 IH2]; [lia| |lia]. pose proof (tg_nonneg _ _ TG _ _ _ I). lia. Qed.

Lemma stree_edges G v D w : stree G v D w -> exists L, incl L G /\ weight L = w /\ forall x, In x D -> joined L v x.
Proof.
  intros T. induction T as [v|v u a D w I T (L & A & B & C)|v D1 D2 w1 w2 T1 (L1 & A1 & B1 & C1) T2 (L2 & A2 & B2 & C2)].
  - exists []. split; [intros e []|]. split; [reflexivity|]. intros x [<-|[]]. constructor.
  - exists ((v, u, a) :: L). split; [intros e [<-|He]; [exact I|apply A, He]|]. split; [unfold weight in *; cbn [sumZ]; rewrite B; reflexivity|].
    intros x [<-|Hx]; [constructor|]. eapply joined_trans; [apply (joined_edge _ v u a); left; left; reflexivity|].
    eapply joined_incl; [|apply C, Hx]. intros e He. right; exact He.
  - exists (L1 ++ L2). split; [intros e He; apply in_app_iff in He; destruct He; auto|]. split; [rewrite weight_app; lia|].
    intros x Hx. apply in_app_iff in Hx. destruct Hx as [Hx|Hx]; [eapply joined_incl; [|apply C1, Hx]|eapply joined_incl; [|apply C2, Hx]]; intros e He; apply in_app_iff; tauto.
Qed.

Lemma stree_walk n G v D w x : target n G -> stree G v D w -> In x D -> exists b, walk G v x b /\ b <= w.
Proof.
  intros TG T. revert x. induction T as [v|v u a D w I T IH|v D1 D2 w1 w2 T1 IH1 T2 IH2]; intros x Hx.
  - destruct Hx as [<-|[]]. exists 0. split; [constructor|lia].
  - pose proof (tg_nonneg _ _ TG _ _ _ I). pose proof (stree_nonneg _ _ _ _ _ TG T). destruct Hx as [<-|Hx]; [exists 0; split; [constructor|lia]|].
    destruct (IH x Hx) as (b & W & Hb). exists (a + b). split; [econstructor; eassumption|lia].
  - pose proof (stree_nonneg _ _ _ _ _ TG T1). pose proof (stree_nonneg _ _ _ _ _ TG T2).
    apply in_app_iff in Hx. destruct Hx as [Hx|Hx]; [destruct (IH1 x Hx) as (b & W & Hb)|destruct (IH2 x Hx) as (b & W & Hb)]; exists b; (split; [exact W|lia]).
Qed.

(** Hanging a further edge below a covered node. *)
Lemma graft G v D w x y a : stree G v D w -> In x D -> In (x, y, a) G ->
  exists D', stree G v D' (w + a) /\ In y D' /\ incl D D'.
Proof.
  intros T. induction T as [v|v u b D w I T IH|v D1 D2 w1 w2 T1 IH1 T2 IH2]; intros Hx Ha.
  - destruct Hx as [<-|[]]. exists [v; y]. split; [|split; [right; left; reflexivity|intros z [<-|[]]; left; reflexivity]].
    replace (0 + a) with (a + 0) by lia. econstructor; [exact Ha|constructor].
  - destruct Hx as [<-|Hx].
    + exists ((v :: D) ++ [v; y]). split; [|split; [apply in_or_app; right; right; left; reflexivity|intros z Hz; apply in_or_app; left; exact Hz]].
      replace (b + w + a) with ((b + w) + (a + 0)) by lia. apply st_join; [econstructor; eassumption|]. econstructor; [exact Ha|constructor].
    + destruct (IH Hx Ha) as (D' & T' & Hy & Hi). exists (v :: D'). split; [rewrite <- Z.add_assoc; econstructor; eassumption|].
      split; [right; exact Hy|]. intros z [<-|Hz]; [left; reflexivity|right; apply Hi, Hz].
  - apply in_app_iff in Hx. destruct Hx as [Hx|Hx].
    + destruct (IH1 Hx Ha) as (D' & T' & Hy & Hi). exists (D' ++ D2). split; [replace (w1 + w2 + a) with ((w1 + a) + w2) by lia; apply st_join; assumption|].
      split; [apply in_or_app; left; exact Hy|]. intros z Hz. apply in_app_iff in Hz. apply in_or_app. destruct Hz; [left; apply Hi; assumption|right; assumption].
    + destruct (IH2 Hx Ha) as (D' & T' & Hy & Hi). exists (D1 ++ D'). split; [rewrite <- Z.add_assoc; apply st_join; assumption|].
      split; [apply in_or_app; right; exact Hy|]. intros z Hz. apply in_app_iff in Hz. apply in_or_app. destruct Hz; [left; assumption|right; apply Hi; assumption].
Qed.

(** A crossing edge of [R] (exactly one end in [D]), or none. *)
Lemma find_crossing (D : list nat) (R : list arc) :
  (exists R1 x y a R2, R = R1 ++ (x, y, a) :: R2 /\ ((In x D /\ ~ In y D) \/ (In y D /\ ~ In x D))) \/
  (forall x y a, In (x, y, a) R -> In x D <-> In y D).
Proof.
  induction R as [|[[x y] a] R IH]; [right; intros x y a []|].
  destruct (in_dec Nat.eq_dec x D) as [Hx|Hx], (in_dec Nat.eq_dec y D) as [Hy|Hy].
  - destruct IH as [(R1 & x' & y' & a' & R2 & E & H)|IH]; [left; exists ((x, y, a) :: R1), x', y', a', R2; split; [rewrite E; reflexivity|exact H]|].
    right. intros x' y' a' [E|I]; [inversion E; subst; tauto|apply (IH x' y' a' I)].
  - left. exists [], x, y, a, R. split; [reflexivity|tauto].
  - left. exists [], x, y, a, R. split; [reflexivity|tauto].
  - destruct IH as [(R1 & x' & y' & a' & R2 & E & H)|IH]; [left; exists ((x, y, a) :: R1), x', y', a', R2; split; [rewrite E; reflexivity|exact H]|].
    right. intros x' y' a' [E|I]; [inversion E; subst; tauto|apply (IH x' y' a' I)].
Qed.

(** Every edge set contains, for every root, a tree covering everything joined to the root. *)
Lemma grow n G L v : target n G -> incl L G -> exists D w, stree G v D w /\ w <= weight L /\ forall x, joined L v x -> In x D.
Proof.
  intros TG HL.
  assert (A : forall k R D w, length R = k -> incl R L -> stree G v D w ->
            (forall x y a, In (x, y, a) L -> In (x, y, a) R \/ (In x D /\ In y D)) ->
            exists D' w', stree G v D' w' /\ w' <= w + weight R /\ forall x, joined L v x -> In x D').
  { induction k as [|k IH]; intros R D w Hk HR T C;
      (destruct (find_crossing D R) as [(R1 & x & y & a & R2 & E & H)|N]; [|exists D, w; split; [exact T|]; split;
         [pose proof (weight_nonneg n G R TG (fun e He => HL e (HR e He))); lia|]; intros z Z; induction Z as [|p q a Z IHZ I]; [eapply stree_root; exact T|];
         destruct I as [I|I]; destruct (C _ _ _ I) as [I'|[I1 I2]]; try assumption; apply (N _ _ _ I'); exact IHZ]).
    - subst R. rewrite app_length in Hk. cbn in Hk. lia.
    - assert (Hin : In (x, y, a) L) by (apply HR; subst R; apply in_or_app; right; left; reflexivity).
      assert (Hsub : incl (R1 ++ R2) L) by (intros e He; apply HR; subst R; apply in_app_iff in He; apply in_or_app; destruct He; [left; assumption|right; right; assumption]).
      assert (HG : exists D', stree G v D' (w + a) /\ In x D' /\ In y D' /\ incl D D').
      { destruct H as [[Hx Hy]|[Hy Hx]].
        - destruct (graft G v D w x y a T Hx (HL _ Hin)) as (D' & T' & Hy' & Hi). exists D'. split; [exact T'|]. split; [apply Hi, Hx|]. split; assumption.
        - destruct (graft G v D w y x a T Hy (tg_sym _ _ TG _ _ _ (HL _ Hin))) as (D' & T' & Hx' & Hi). exists D'. split; [exact T'|]. split; [exact Hx'|]. split; [apply Hi, Hy|exact Hi]. }
      destruct HG as (D' & T' & Hx' & Hy' & Hi).
      destruct (IH (R1 ++ R2) D' (w + a)) as (D2 & w2 & T2 & Hw & Hc).
      + subst R. rewrite app_length in *. cbn in Hk. lia.
      + exact Hsub.
      + exact T'.
      + intros p q b I. destruct (C p q b I) as [I'|[I1 I2]]; [|right; split; apply Hi; assumption].
        subst R. apply in_app_iff in I'. destruct I' as [I'|[I'|I']]; [left; apply in_or_app; left; exact I'| |left; apply in_or_app; right; exact I'].
        inversion I'; subst. right. split; assumption.
      + exists D2, w2. split; [exact T2|]. split; [|exact Hc]. subst R. rewrite weight_app in *. unfold weight in *. cbn [sumZ]. unfold wt at 2. cbn [snd]. lia. }
  destruct (A (length L) L [v] 0 eq_refl (incl_refl L) (st_root G v)) as (D & w & T & Hw & Hc).
  - intros x y a I. left. exact I.
  - exists D, w. split; [exact T|]. split; [lia|exact Hc].
Qed.

(** The junction decomposition: a tree rooted at [v] covering at least two terminals splits at some node [u] reachable from [v]. *)
Lemma decompose n G v D w (T : list nat) :
  target n G -> stree G v D w -> incl T D -> NoDup T -> (2 <= length T)%nat ->
  exists u a w1 w2 DE DF (p : nat -> bool),
    walk G v u a /\ stree G u DE w1 /\ stree G u DF w2 /\ a + w1 + w2 <= w /\
    (exists x, In x T /\ p x = true) /\ (exists x, In x T /\ p x = false) /\
    (forall x, In x T -> p x = true -> In x DE) /\ (forall x, In x T -> p x = false -> In x DF).
Proof.
  intros TG ST. revert T. induction ST as [v|v u a D w I ST IH|v D1 D2 w1 w2 T1 IH1 T2 IH2]; intros T HT ND Hlen.
  - exfalso. pose proof (NoDup_incl_length ND HT). cbn in H. lia.
  - destruct (in_dec Nat.eq_dec v T) as [Hv|Hv].
    + exists v, 0, 0, (a + w), [v], (v :: D), (fun x => x =? v)%nat.
      split; [constructor|]. split; [constructor|]. split; [econstructor; eassumption|]. split; [lia|].
      split; [exists v; split; [exact Hv|apply Nat.eqb_refl]|]. split; [|split].
      * destruct T as [|x [|y T]]; cbn in Hlen; try lia. inversion ND as [|? ? N1 N2]; subst.
        destruct (Nat.eq_dec x v) as [->|Ne]; [exists y; split; [right; left; reflexivity|]|exists x; split; [left; reflexivity|apply Nat.eqb_neq; exact Ne]].
        apply Nat.eqb_neq. intros ->. apply N1. left; reflexivity.
      * intros x _ E. apply Nat.eqb_eq in E. subst. left; reflexivity.
      * intros x Hx _. apply HT, Hx.
    + destruct (IH T) as (z & b & w1 & w2 & DE & DF & p & W & S1 & S2 & Hle & P1 & P2 & P3 & P4); [|exact ND|exact Hlen|].
      { intros x Hx. destruct (HT x Hx) as [<-|Hx']; [contradiction|exact Hx']. }
      exists z, (a + b), w1, w2, DE, DF, p. split; [econstructor; eassumption|]. split; [exact S1|]. split; [exact S2|]. split; [lia|]. tauto.
  - pose proof (stree_nonneg _ _ _ _ _ TG T1). pose proof (stree_nonneg _ _ _ _ _ TG T2).
    set (p := fun x => if in_dec Nat.eq_dec x D1 then true else false).
    destruct (existsb (fun x => negb (p x)) T) eqn:E2.
    + destruct (existsb p T) eqn:E1.
      * apply existsb_exists in E1. destruct E1 as (x1 & Hx1 & Px1). apply existsb_exists in E2. destruct E2 as (x2 & Hx2 & Px2).
        exists v, 0, w1, w2, D1, D2, p. split; [constructor|]. split; [exact T1|]. split; [exact T2|]. split; [lia|].
        split; [exists x1; tauto|]. split; [exists x2; split; [exact Hx2|apply negb_true_iff; exact Px2]|]. split.
        -- intros x _ Px. unfold p in Px. destruct (in_dec Nat.eq_dec x D1); [assumption|discriminate].
        -- intros x Hx Px. unfold p in Px. destruct (in_dec Nat.eq_dec x D1); [discriminate|]. specialize (HT x Hx). apply in_app_iff in HT. tauto.
      * destruct (IH2 T) as (z & b & u1 & u2 & DE & DF & q & W & S1 & S2 & Hle & P); [|exact ND|exact Hlen|].
        { intros x Hx. specialize (HT x Hx). apply in_app_iff in HT. destruct HT as [HT|HT]; [|exact HT]. exfalso.
          assert (existsb p T = true); [|congruence]. apply existsb_exists. exists x. split; [exact Hx|]. unfold p. destruct (in_dec Nat.eq_dec x D1); tauto. }
        exists z, b, u1, u2, DE, DF, q. split; [exact W|]. split; [exact S1|]. split; [exact S2|]. split; [lia|exact P].
    + destruct (IH1 T) as (z & b & u1 & u2 & DE & DF & q & W & S1 & S2 & Hle & P); [|exact ND|exact Hlen|].
      { intros x Hx. destruct (in_dec Nat.eq_dec x D1) as [Hd|Hd]; [exact Hd|]. exfalso.
        assert (existsb (fun x => negb (p x)) T = true); [|congruence]. apply existsb_exists. exists x. split; [exact Hx|]. unfold p. destruct (in_dec Nat.eq_dec x D1); tauto. }
      exists z, b, u1, u2, DE, DF, q. split; [exact W|]. split; [exact S1|]. split; [exact S2|]. split; [lia|exact P].
Qed.
