(** TargetGraph.v - AllPairShortestPath::compute, the table index, the set queries and the connectivity test of the target graph
    (mt-kahypar/partition/mapping/all_pair_shortest_path.cpp, target_graph.{h,cpp}, steiner_tree.cpp). *)
From Verif Require Import Base Sorting Weights TargetSpec.

(** target_graph.h:61 kInvalidDistance = INT_MAX / 3. *)
Definition kInv : Z := (2 ^ 31 - 1) / 3.

(** all_pair_shortest_path.cpp:33-37: index(u, v, n) = u + v * n. *)
Definition pidx (n u v : nat) : nat := (u + v * n)%nat.

(** all_pair_shortest_path.cpp:45-52: the diagonal is 0, then every directed edge, in the order of graph.edges(), overwrites its entry. *)
Definition init_diag (n : nat) (T : nat -> Z) : nat -> Z :=
  fold_left (fun T u => upd T (pidx n u u) 0) (seq 0 n) T.
Definition init_arcs (n : nat) (G : list arc) (T : nat -> Z) : nat -> Z :=
  fold_left (fun T a => upd T (pidx n (src a) (dst a)) (wt a)) G T.

(** all_pair_shortest_path.cpp:58-59: the innermost statement (int addition). *)
Definition relax (n k u v : nat) (T : nat -> Z) : nat -> Z :=
  upd T (pidx n u v) (Z.min (T (pidx n u v)) (wrap32 (T (pidx n u k) + T (pidx n k v)))).

(** all_pair_shortest_path.cpp:55-63: the three nested loops. *)
Definition floyd (n : nat) (T : nat -> Z) : nat -> Z :=
  fold_left (fun T k => fold_left (fun T u => fold_left (fun T v => relax n k u v T) (seq 0 n) T) (seq 0 n) T) (seq 0 n) T.

(** AllPairShortestPath::compute (:40-64). *)
Definition all_pairs (n : nat) (G : list arc) (T : nat -> Z) : nat -> Z := floyd n (init_arcs n G (init_diag n T)).

(** target_graph.cpp:55: _distances.assign(num_entries, kInvalidDistance). *)
Definition fresh : nat -> Z := fun _ => kInv.

(** ** The computed distances are shortest path lengths *)
Lemma kInv_val : kInv = 715827882. Proof. reflexivity. Qed.

Lemma pidx_inj n u v u' v' : (u < n)%nat -> (u' < n)%nat -> pidx n u v = pidx n u' v' -> u = u' /\ v = v'.
Proof.
  unfold pidx. intros Hu Hu' E. assert (v = v') by nia. subst. split; [lia|reflexivity].
Qed.

Lemma walk_app G u v w a b : walk G u v a -> walk G v w b -> walk G u w (a + b).
Proof.
  intros W1 W2. induction W1 as [u|u x v a1 b1 I W IH]; [exact W2|]. rewrite <- Z.add_assoc. econstructor; [exact I|auto].
Qed.

Lemma walk_rev n G u v w : target n G -> walk G u v w -> walk G v u w.
Proof.
  intros TG W. induction W as [u|u x v a b I W IH]; [constructor|].
  rewrite Z.add_comm. eapply walk_app; [exact IH|]. replace a with (a + 0) by lia. econstructor; [apply (tg_sym _ _ TG); exact I|constructor].
Qed.

Lemma walk_nonneg n G u v w : target n G -> walk G u v w -> 0 <= w.
Proof. intros TG W. induction W as [u|u x v a b I W IH]; [lia|]. pose proof (tg_nonneg _ _ TG _ _ _ I). lia. Qed.

Lemma walk_range n G u v w : target n G -> walk G u v w -> (u < n)%nat -> (v < n)%nat.
Proof. intros TG W. induction W as [u|u x v a b I W IH]; [auto|]. intros _. apply IH. apply (tg_src _ _ TG) in I. tauto. Qed.

(** Walks whose inner nodes are smaller than [k]. *)
Inductive iwalk (G : list arc) (k : nat) : nat -> nat -> Z -> Prop :=
| iw_one u v a : In (u, v, a) G -> iwalk G k u v a
| iw_cons u x v a b : In (u, x, a) G -> (x < k)%nat -> iwalk G k x v b -> iwalk G k u v (a + b).

Lemma iwalk_app G k u x v a b : iwalk G k u x a -> (x < k)%nat -> iwalk G k x v b -> iwalk G k u v (a + b).
Proof.
  intros W1 Hx W2. induction W1 as [u x a I|u y x a1 b1 I Hy W IH]; [econstructor; eassumption|].
  rewrite <- Z.add_assoc. econstructor; [exact I|exact Hy|auto].
Qed.

(** A walk with inner nodes below [k+1] either avoids [k] as inner node or is split at its first and last visit of [k] (shorter or equal). *)
Lemma iwalk_split n G k u v w :
  target n G -> iwalk G (S k) u v w ->
  iwalk G k u v w \/ exists a b, iwalk G k u k a /\ iwalk G k k v b /\ a + b <= w.
Proof.
  intros TG W. induction W as [u v a I|u x v a b I Hx W IH].
  - left. constructor. exact I.
  - pose proof (tg_nonneg _ _ TG _ _ _ I) as Na.
    destruct (Nat.eq_dec x k) as [->|Hk].
    + right. destruct IH as [IH|(a' & b' & W1 & W2 & Hab)].
      * exists a, b. split; [constructor; exact I|]. split; [exact IH|lia].
      * exists a, b'. split; [constructor; exact I|]. split; [exact W2|].
        assert (0 <= a'); [|lia].
        clear - W1 TG. induction W1 as [u v a I|u x v a b I Hx W IH]; pose proof (tg_nonneg _ _ TG _ _ _ I); lia.
    + assert (Hx' : (x < k)%nat) by lia. destruct IH as [IH|(a' & b' & W1 & W2 & Hab)].
      * left. econstructor; eassumption.
      * right. exists (a + a'), b'. split; [econstructor; eassumption|]. split; [exact W2|lia].
Qed.

Lemma iwalk_walk G k u v w : iwalk G k u v w -> walk G u v w.
Proof.
  intros W. induction W as [u v a I|u x v a b I Hx W IH].
  - rewrite <- (Z.add_0_r a). econstructor; [exact I|constructor].
  - econstructor; eassumption.
Qed.

Lemma walk_iwalk n G u v w : target n G -> walk G u v w -> u = v \/ iwalk G n u v w.
Proof.
  intros TG W. induction W as [u|u x v a b I W IH]; [left; reflexivity|]. right.
  destruct (tg_src _ _ TG _ _ _ I) as [Hu Hx].
  destruct IH as [->|IH].
  - inversion W as [z|z y v' a' b' I' W']; subst.
    + rewrite Z.add_0_r. constructor. exact I.
    + assert (Hc : forall p q c, walk G p q c -> (p < n)%nat -> forall o e, In (o, p, e) G -> iwalk G n o q (e + c)).
      { clear - TG. intros p q c W. induction W as [p|p y q a b I W IH]; intros Hp o e Io.
        - rewrite Z.add_0_r. constructor. exact Io.
        - econstructor; [exact Io|exact Hp|]. apply IH; [apply (tg_src _ _ TG) in I; tauto|exact I]. }
      apply (Hc v v (a' + b') W Hx u a I).
  - econstructor; eassumption.
Qed.

Definition fw_bound (n : nat) (G : list arc) (T : nat -> Z) : Prop :=
  forall u v, (u < n)%nat -> (v < n)%nat -> 0 <= T (pidx n u v) <= kInv /\ (T (pidx n u v) = kInv \/ walk G u v (T (pidx n u v))).
Definition fw_compl (n : nat) (G : list arc) (k : nat) (T : nat -> Z) : Prop :=
  forall u v w, (u < n)%nat -> (v < n)%nat -> iwalk G k u v w -> T (pidx n u v) <= w.
Definition below (n : nat) (T T' : nat -> Z) : Prop :=
  (forall i, T' i <= T i) /\ (forall i, (n * n <= i)%nat -> T' i = T i).

Lemma below_refl n T : below n T T. Proof. split; intros; lia. Qed.
Lemma below_trans n T1 T2 T3 : below n T1 T2 -> below n T2 T3 -> below n T1 T3.
Proof. intros [A B] [C D]. split; intros i; [specialize (A i); specialize (C i); lia|intros Hi; rewrite D, B by exact Hi; reflexivity]. Qed.

Lemma kInv_lt : 0 < kInv. Proof. rewrite kInv_val. lia. Qed.
Lemma wrap_sum a b : 0 <= a <= kInv -> 0 <= b <= kInv -> wrap32 (a + b) = a + b.
Proof. intros A B. apply wrap32_id. rewrite kInv_val in *. lia. Qed.

Lemma relax_ok n G k u v T :
  target n G -> (k < n)%nat -> (u < n)%nat -> (v < n)%nat -> fw_bound n G T ->
  fw_bound n G (relax n k u v T) /\ below n T (relax n k u v T) /\
  relax n k u v T (pidx n u v) <= T (pidx n u k) + T (pidx n k v).
Proof.
  intros TG Hk Hu Hv B. destruct (B u k Hu Hk) as [B1 W1]. destruct (B k v Hk Hv) as [B2 W2]. destruct (B u v Hu Hv) as [B3 W3].
  unfold relax. rewrite wrap_sum by assumption. split; [|split].
  - intros a b Ha Hb. unfold upd. destruct (Nat.eqb_spec (pidx n a b) (pidx n u v)) as [E|E]; [|apply B; assumption].
    apply pidx_inj in E; [|assumption|assumption]. destruct E as [-> ->]. split; [lia|].
    destruct (Z.min_spec (T (pidx n u v)) (T (pidx n u k) + T (pidx n k v))) as [[L ->]|[L ->]]; [exact W3|].
    destruct W1 as [W1|W1]; [rewrite W1 in *|].
    + assert (T (pidx n k v) = 0) as -> by lia. left. lia.
    + destruct W2 as [W2|W2]; [rewrite W2 in *; left; lia|]. right. eapply walk_app; eassumption.
  - split; intros i; unfold upd; destruct (Nat.eqb_spec i (pidx n u v)) as [E|E]; subst; try lia.
    intros Hi. unfold pidx in Hi. nia.
  - rewrite upd_same. lia.
Qed.

Lemma inner_v n G k u vs T :
  target n G -> (k < n)%nat -> (u < n)%nat -> (forall v, In v vs -> (v < n)%nat) -> fw_bound n G T ->
  let T' := fold_left (fun T v => relax n k u v T) vs T in
  fw_bound n G T' /\ below n T T' /\
  forall v, In v vs -> T' (pidx n u v) <= T (pidx n u k) + T (pidx n k v).
Proof.
  intros TG Hk Hu. revert T. induction vs as [|v vs IH]; intros T Hvs B; cbn [fold_left]; cbv zeta.
  - split; [exact B|]. split; [apply below_refl|]. intros v [].
  - destruct (relax_ok n G k u v T TG Hk Hu (Hvs v (or_introl eq_refl)) B) as (B1 & L1 & R1).
    destruct (IH (relax n k u v T) (fun x Hx => Hvs x (or_intror Hx)) B1) as (B2 & L2 & R2).
    split; [exact B2|]. split; [eapply below_trans; eassumption|]. intros x [->|Hx].
    + destruct L2 as [L2 _]. specialize (L2 (pidx n u x)). lia.
    + specialize (R2 x Hx). destruct L1 as [L1 _]. pose proof (L1 (pidx n u k)). pose proof (L1 (pidx n k x)). lia.
Qed.

Lemma inner_u n G k us T :
  target n G -> (k < n)%nat -> (forall v, In v us -> (v < n)%nat) -> fw_bound n G T ->
  let T' := fold_left (fun T u => fold_left (fun T v => relax n k u v T) (seq 0 n) T) us T in
  fw_bound n G T' /\ below n T T' /\
  forall u v, In u us -> (v < n)%nat -> T' (pidx n u v) <= T (pidx n u k) + T (pidx n k v).
Proof.
  intros TG Hk. revert T. induction us as [|u us IH]; intros T Hus B; cbn [fold_left]; cbv zeta.
  - split; [exact B|]. split; [apply below_refl|]. intros u v [].
  - destruct (inner_v n G k u (seq 0 n) T TG Hk (Hus u (or_introl eq_refl))) as (B1 & L1 & R1); [intros v Hv; apply in_seq in Hv; lia|exact B|].
    destruct (IH _ (fun x Hx => Hus x (or_intror Hx)) B1) as (B2 & L2 & R2).
    split; [exact B2|]. split; [eapply below_trans; eassumption|]. intros x v [->|Hx] Hv.
    + destruct L2 as [L2 _]. specialize (L2 (pidx n x v)). specialize (R1 v ltac:(apply in_seq; lia)). lia.
    + specialize (R2 x v Hx Hv). destruct L1 as [L1 _]. pose proof (L1 (pidx n x k)). pose proof (L1 (pidx n k v)). lia.
Qed.

Lemma floyd_from n G k m T :
  target n G -> (k + m = n)%nat -> fw_bound n G T -> fw_compl n G k T ->
  let T' := fold_left (fun T k => fold_left (fun T u => fold_left (fun T v => relax n k u v T) (seq 0 n) T) (seq 0 n) T) (seq k m) T in
  fw_bound n G T' /\ below n T T' /\ fw_compl n G n T'.
Proof.
  intros TG. revert k T. induction m as [|m IH]; intros k T Hkm B C; cbn [fold_left seq]; cbv zeta.
  - split; [exact B|]. split; [apply below_refl|]. replace k with n in C by lia. exact C.
  - destruct (inner_u n G k (seq 0 n) T TG ltac:(lia)) as (B1 & L1 & R1); [intros v Hv; apply in_seq in Hv; lia|exact B|].
    destruct (IH (S k) _ ltac:(lia) B1) as (B2 & L2 & C2).
    + intros u v w Hu Hv W. destruct (iwalk_split n G k u v w TG W) as [W'|(a & b & Wa & Wb & Hab)].
      * specialize (C u v w Hu Hv W'). destruct L1 as [L1 _]. specialize (L1 (pidx n u v)). lia.
      * pose proof (C u k a Hu ltac:(lia) Wa). pose proof (C k v b ltac:(lia) Hv Wb).
        specialize (R1 u v ltac:(apply in_seq; lia) Hv). lia.
    + split; [exact B2|]. split; [eapply below_trans; eassumption|exact C2].
Qed.

Lemma init_diag_spec n us T i :
  fold_left (fun T u => upd T (pidx n u u) 0) us T i = if existsb (fun u => i =? pidx n u u)%nat us then 0 else T i.
Proof.
  revert T. induction us as [|u us IH]; intros T; cbn [fold_left existsb]; [reflexivity|]. rewrite IH.
  destruct (existsb (fun u0 => i =? pidx n u0 u0)%nat us); [rewrite orb_true_r; reflexivity|]. rewrite orb_false_r. unfold upd. reflexivity.
Qed.

Lemma init_arcs_spec n G T i :
  (exists u v a, In (u, v, a) G /\ i = pidx n u v /\ init_arcs n G T i = a) \/
  ((forall u v a, In (u, v, a) G -> i <> pidx n u v) /\ init_arcs n G T i = T i).
Proof.
  revert T. induction G as [|[[u v] a] G IH]; intros T; unfold init_arcs; cbn [fold_left]; [right; split; [intros u v a []|reflexivity]|].
  fold (init_arcs n G (upd T (pidx n (src (u, v, a)) (dst (u, v, a))) (wt (u, v, a)))).
  destruct (IH (upd T (pidx n (src (u, v, a)) (dst (u, v, a))) (wt (u, v, a)))) as [(u' & v' & a' & I & E & R)|[N R]].
  - left. exists u', v', a'. split; [right; exact I|]. split; assumption.
  - rewrite R. unfold upd, src, dst, wt. cbn [fst snd]. destruct (Nat.eqb_spec i (pidx n u v)) as [E|E].
    + left. exists u, v, a. split; [left; reflexivity|]. split; [exact E|reflexivity].
    + right. split; [|reflexivity]. intros u' v' a' [Heq|I]; [inversion Heq; subst; exact E|apply (N u' v' a' I)].
Qed.

Definition initial_table (n : nat) (G : list arc) : nat -> Z := init_arcs n G (init_diag n fresh).

Lemma initial_arc n G u v a : target n G -> In (u, v, a) G -> initial_table n G (pidx n u v) = a.
Proof.
  intros TG I. destruct (init_arcs_spec n G (init_diag n fresh) (pidx n u v)) as [(u' & v' & a' & I' & E & R)|[N R]]; [|exfalso; exact (N u v a I eq_refl)].
  unfold initial_table. rewrite R. destruct (tg_src _ _ TG _ _ _ I). destruct (tg_src _ _ TG _ _ _ I').
  apply pidx_inj in E; [|assumption|assumption]. destruct E as [-> ->]. exact (tg_simple _ _ TG _ _ _ _ I' I).
Qed.

Lemma initial_diag n G u : target n G -> (u < n)%nat -> initial_table n G (pidx n u u) = 0.
Proof.
  intros TG Hu. destruct (init_arcs_spec n G (init_diag n fresh) (pidx n u u)) as [(u' & v' & a' & I' & E & R)|[N R]].
  - exfalso. destruct (tg_src _ _ TG _ _ _ I'). apply pidx_inj in E; [|assumption|assumption]. destruct E as [-> ->].
    exact (tg_noloop _ _ TG _ _ _ I' eq_refl).
  - unfold initial_table. rewrite R. unfold init_diag. rewrite init_diag_spec.
    replace (existsb _ _) with true; [reflexivity|]. symmetry. apply existsb_exists. exists u. split; [apply in_seq; lia|apply Nat.eqb_refl].
Qed.

Lemma initial_bound n G : target n G -> (forall u v a, In (u, v, a) G -> a <= kInv) -> fw_bound n G (initial_table n G).
Proof.
  intros TG Hw u v Hu Hv.
  destruct (init_arcs_spec n G (init_diag n fresh) (pidx n u v)) as [(u' & v' & a' & I' & E & R)|[N R]].
  - destruct (tg_src _ _ TG _ _ _ I'). apply pidx_inj in E; [|assumption|assumption]. destruct E as [-> ->].
    unfold initial_table. rewrite R. split; [split; [exact (tg_nonneg _ _ TG _ _ _ I')|exact (Hw _ _ _ I')]|]. right.
    rewrite <- (Z.add_0_r a'). econstructor; [exact I'|constructor].
  - destruct (Nat.eq_dec u v) as [->|Huv].
    + rewrite initial_diag by assumption. split; [pose proof kInv_lt; lia|]. right. constructor.
    + unfold initial_table. rewrite R. unfold init_diag. rewrite init_diag_spec.
      replace (existsb _ _) with false; [unfold fresh; pose proof kInv_lt; split; [lia|left; reflexivity]|]. symmetry.
      apply not_true_is_false. intros E. apply existsb_exists in E. destruct E as (x & Hx & E). apply Nat.eqb_eq in E. apply in_seq in Hx.
      apply pidx_inj in E; lia.
Qed.

Lemma initial_big n G i : target n G -> (n * n <= i)%nat -> initial_table n G i = kInv.
Proof.
  intros TG Hi. destruct (init_arcs_spec n G (init_diag n fresh) i) as [(u' & v' & a' & I' & E & R)|[N R]].
  - exfalso. destruct (tg_src _ _ TG _ _ _ I'). unfold pidx in E. nia.
  - unfold initial_table. rewrite R. unfold init_diag. rewrite init_diag_spec.
    replace (existsb _ _) with false; [reflexivity|]. symmetry. apply not_true_is_false. intros E. apply existsb_exists in E.
    destruct E as (x & Hx & E). apply Nat.eqb_eq in E. apply in_seq in Hx. unfold pidx in E. nia.
Qed.

Lemma floyd_spec n G :
  target n G -> (forall u v a, In (u, v, a) G -> a <= kInv) ->
  let T := all_pairs n G fresh in
  (forall u v, (u < n)%nat -> (v < n)%nat ->
     0 <= T (pidx n u v) <= kInv /\ (T (pidx n u v) = kInv \/ walk G u v (T (pidx n u v))) /\
     (forall w, walk G u v w -> T (pidx n u v) <= w)) /\
  (forall i, (n * n <= i)%nat -> T i = kInv).
Proof.
  intros TG Hw. cbv zeta. unfold all_pairs. fold (initial_table n G). unfold floyd.
  destruct (floyd_from n G 0 n (initial_table n G) TG ltac:(lia) (initial_bound n G TG Hw)) as (B & [L1 L2] & C).
  - intros u v w Hu Hv W. remember 0%nat as z eqn:Ez. destruct W as [u v a I|u x v a b I Hx W]; [|lia].
    rewrite (initial_arc n G u v a TG I). lia.
  - split.
    + intros u v Hu Hv. destruct (B u v Hu Hv) as [B1 B2]. split; [exact B1|]. split; [exact B2|].
      intros w W. destruct (walk_iwalk n G u v w TG W) as [->|W']; [|apply C; assumption].
      specialize (L1 (pidx n v v)). rewrite initial_diag in L1 by assumption. pose proof (walk_nonneg _ _ _ _ _ TG W). lia.
    + intros i Hi. rewrite L2 by exact Hi. apply initial_big; assumption.
Qed.

(** ** C42: distances are shortest path lengths.
    [all_pairs n G fresh] is the table after precomputeDistances; distance(i, j) reads entry i + j * k (target_graph.h:187-190). *)
Definition tg_distance (T : nat -> Z) (n i j : nat) : Z := T (pidx n i j).

Theorem C42_distances_are_shortest_paths n G :
  target n G ->
  (forall u v a, In (u, v, a) G -> a <= kInv) ->
  (forall u v, (u < n)%nat -> (v < n)%nat -> exists w, walk G u v w /\ w < kInv) ->
  forall u v, (u < n)%nat -> (v < n)%nat ->
    (pidx n u v < n * n)%nat /\ is_dist G u v (tg_distance (all_pairs n G fresh) n u v).
Proof.
  intros TG Hw Hc u v Hu Hv.
  split; [unfold pidx; nia|].
  destruct (floyd_spec n G TG Hw) as [F _]. destruct (F u v Hu Hv) as (B & W & C). destruct (Hc u v Hu Hv) as (w & Ww & Hwk).
  specialize (C w Ww) as Cw. unfold tg_distance. split; [|exact C]. destruct W as [W|W]; [lia|exact W].
Qed.

(** Non-vacuity: a path 0 -5- 1 -2- 2 with a heavy chord 0 -9- 2. *)
Definition exG : list arc := [(0%nat,1%nat,5); (0%nat,2%nat,9); (1%nat,0%nat,5); (1%nat,2%nat,2); (2%nat,0%nat,9); (2%nat,1%nat,2)].
Lemma exG_target : target 3 exG.
Proof.
  split; unfold exG; cbn [In]; intros; repeat match goal with H : _ \/ _ |- _ => destruct H | H : (_, _) = (_, _) |- _ => inversion H; clear H; subst | H : False |- _ => destruct H end;
    try lia; try tauto; try congruence.
Qed.
Example ex_C42 : tg_distance (all_pairs 3 exG fresh) 3 0 2 = 7 /\ tg_distance (all_pairs 3 exG fresh) 3 2 0 = 7.
Proof. split; vm_compute; reflexivity. Qed.

(** Finding: with parallel edges of different weight the last one wins, so the reported distance is not the shortest. *)
Definition parG : list arc := [(0%nat,1%nat,1); (0%nat,1%nat,4); (1%nat,0%nat,1); (1%nat,0%nat,4)].
Theorem C42_refuted_parallel_edges :
  tg_distance (all_pairs 2 parG fresh) 2 0 1 = 4 /\ walk parG 0 1 1.
Proof.
  split; [vm_compute; reflexivity|]. change 1 with (1 + 0). econstructor; [left; reflexivity|constructor].
Qed.
