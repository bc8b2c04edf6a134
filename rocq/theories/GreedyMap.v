(** One-to-one mapping of the blocks of a partition to the nodes of a target
    graph: the greedy construction (C90).

    /repo/mt-kahypar/partition/mapping/greedy_mapping.cpp:62-258,
    initial_mapping.cpp:140-207 (fixed vertices of the contracted hypergraph).

    Simplifications: up_to_date_ratings is false exactly for assigned nodes outside
    of [assign] (line 132 marks u, 146 and 156 unmark and mark the others again), so it
    is not stored; the priority queue may pop any element and one of several
    equally good processors may be any (over-approximations); the ratings of the
    processors ([rate], 202-214) and the weighted degrees are parameters. *)
From Coq Require Import List Arith Lia Bool ZArith.
From Verif Require Import Base Spec WfCheck KLMap KLMapThms.
Import ListNotations.

(** *** The choice of a processor, 216-240 *)
Section Choice.
Variables (rate : nat -> Z) (fit : nat -> bool).  (* tmp_ratings; 222-223 *)
(** tie_breaking, best_rating (None: the initial maximum), best_is_balanced *)
Definition choice_step (st : list nat * option Z * bool) (p : nat) : list nat * option Z * bool :=
  let '(ties, best, bal) := st in
  let is_balanced := fit p in
  let at_least := is_balanced || negb bal in
  let bal' := bal || is_balanced in
  let less := match best with None => true | Some b => rate p <? b end in
  let equal := match best with None => false | Some b => rate p =? b end in
  if (is_balanced && negb bal') || (at_least && less) then ([p], Some (rate p), bal')
  else if at_least && equal then (ties ++ [p], best, bal') else (ties, best, bal').
Definition choices (un : list nat) : list nat := fst (fst (fold_left choice_step un ([], None, false))).
End Choice.

(** 63-91: the candidates for the seed; an empty list would be indexed (88-90) *)
Definition seed_step (deg : nat -> Z) (st : list nat * option Z) (p : nat) : list nat * option Z :=
  let '(l, m) := st in
  match m with
  | None => ([p], Some (deg p))
  | Some b => if deg p <? b then ([p], Some (deg p)) else if deg p =? b then (l ++ [p], m) else st
  end.
Definition seed_candidates (individual : bool) (L deg : nat -> Z) (un : list nat) (required : Z) : list nat :=
  fst (fold_left (seed_step deg) (filter (fun p => negb individual || (required <=? L p)) un) ([], None)).

Section Greedy.
Variables (H : hypergraph) (fixed_to : nat -> option nat).
Variables (individual : bool) (L deg : nat -> Z).
Variable rate : partition -> nat -> nat -> Z.   (* mapping so far, node, processor *)
Definition is_fixed (x : nat) : bool := match fixed_to x with Some _ => true | None => false end.
Definition unassigned (P : partition) (x : nat) : bool := match P x with None => true | Some _ => false end.
Record gstate := mkG { g_P : partition; g_un : list nat; g_q : list nat; g_vis : nat -> bool }.
(** 110-123 *)
Definition check (P : partition) (q : list nat) : list nat :=
  match q with [] => match filter (unassigned P) (nodes H) with x :: _ => [x] | [] => [] end | _ => q end.
(** 125-161 *)
Definition assign (s : gstate) (u p : nat) (chk : bool) : gstate :=
  let P := upd (g_P s) u (Some p) in
  let es := filter (fun e => negb (g_vis s e)) (inc H u) in
  let new := filter (fun x => unassigned P x && negb (is_fixed x)) (nodup Nat.eq_dec (flat_map (pins H) es)) in
  let q := new ++ g_q s in
  mkG P (filter (fun x => negb (x =? p)%nat) (g_un s)) (if chk then check P q else q) (fun e => g_vis s e || mem e es).
(** 163-176 *)
Definition preassign (k : nat) : gstate :=
  fold_left (fun s x => match fixed_to x with Some p => assign s x p false | None => s end) (nodes H) (mkG (fun _ => None) (seq 0 k) [] (fun _ => false)).
(** 177-183 *)
Inductive seeded (s : gstate) (seed : nat) : gstate -> Prop :=
| sd_fixed : is_fixed seed = true -> seeded s seed s
| sd_assign p : is_fixed seed = false -> In p (seed_candidates individual L deg (g_un s) (nw H seed)) -> seeded s seed (assign s seed p true).
(** 190-243 *)
Inductive gloop : gstate -> gstate -> Prop :=
| gl_end s : g_q s = [] -> gloop s s
| gl_assigned P un q1 u q2 vis r : unassigned P u = false -> gloop (mkG P un (check P (q1 ++ q2)) vis) r -> gloop (mkG P un (q1 ++ u :: q2) vis) r
| gl_assign P un q1 u q2 vis p r : unassigned P u = true ->
    In p (choices (rate P u) (fun x => negb individual || (nw H u <=? L x)) un) ->
    gloop (assign (mkG P un (q1 ++ q2) vis) u p true) r -> gloop (mkG P un (q1 ++ u :: q2) vis) r.
(** compute_greedy_mapping *)
Definition greedy (k seed : nat) (P : partition) : Prop := exists s r, seeded (preassign k) seed s /\ gloop s r /\ P = g_P r.
End Greedy.

(** ** The choice *)
Section ChoiceProofs.
Variables (rate : nat -> Z) (fit : nat -> bool).
Notation run un st := (fold_left (choice_step rate fit) un st).
Lemma choice_in un : forall st p, In p (fst (fst (run un st))) -> In p un \/ In p (fst (fst st)).
Proof.
  induction un as [|a un IH]; intros st p Hp; cbn [fold_left] in Hp; [auto|]. apply IH in Hp. destruct Hp as [Hp|Hp]; [left; right; auto|].
  destruct st as [[ties best] bal]. unfold choice_step in Hp. cbv zeta in Hp.
  destruct ((fit a && negb (bal || fit a)) || _) in Hp; [destruct Hp as [<-|[]]; left; left; auto|].
  destruct ((fit a || negb bal) && _) in Hp; cbn [fst] in *; [|auto]. apply in_app_iff in Hp. destruct Hp as [Hp|[<-|[]]]; [auto|left; left; auto].
Qed.
Lemma choice_nonempty un : forall st, (fst (fst st) <> [] /\ snd (fst st) <> None) -> fst (fst (run un st)) <> [].
Proof.
  induction un as [|a un IH]; intros [[ties best] bal] (A & B); cbn [fold_left]; auto. cbn [fst snd] in A, B. apply IH. unfold choice_step. cbv zeta.
  destruct ((fit a && negb (bal || fit a)) || _); [cbn; split; discriminate|]. destruct ((fit a || negb bal) && _); cbn; split; auto. destruct ties; discriminate.
Qed.
Lemma choices_nonempty un : un <> [] -> choices rate fit un <> [].
Proof.
  destruct un as [|a un]; [contradiction|]. intros _. unfold choices. cbn [fold_left]. apply choice_nonempty. unfold choice_step. cbv zeta.
  rewrite orb_true_r. cbn [andb orb]. rewrite orb_true_r. cbn. split; discriminate.
Qed.
(** If every processor is large enough, the choices are the processors with the
    smallest rating. *)
Definition best_in (un : list nat) (p : nat) : Prop := In p un /\ forall x, In x un -> rate p <= rate x.
Lemma choice_best un : (forall p, fit p = true) -> forall pre ties best bal, (forall p, In p ties <-> best_in pre p) ->
  (match best with None => pre = [] | Some b => exists p, best_in pre p /\ rate p = b end) ->
  forall p, In p (fst (fst (run un (ties, best, bal)))) <-> best_in (pre ++ un) p.
Proof.
  intros F. induction un as [|a un IH]; intros pre ties best bal HT HB p; cbn [fold_left].
  - now rewrite app_nil_r.
  - replace (pre ++ a :: un) with ((pre ++ [a]) ++ un) by (now rewrite <- app_assoc). unfold choice_step at 2. cbv zeta. rewrite F, orb_true_r. cbn [negb andb orb].
    assert (AP : forall x, In x (pre ++ [a]) <-> In x pre \/ x = a) by (intros x; rewrite in_app_iff; cbn; intuition congruence).
    destruct best as [b|].
    + destruct HB as (p0 & (I0 & M0) & E0). destruct (Z.ltb_spec (rate a) b) as [Lt|Ge]; [|destruct (Z.eqb_spec (rate a) b) as [Eq|Ne]].
      * apply IH.
        -- intros x. unfold best_in. split.
           ++ intros [<-|[]]. split; [apply AP; auto|]. intros y Hy. apply AP in Hy. destruct Hy as [Hy| ->]; [specialize (M0 y Hy)|]; lia.
           ++ intros (Hx & Mx). apply AP in Hx. destruct Hx as [Hx| ->]; [|left; auto]. exfalso. specialize (M0 x Hx). specialize (Mx a ltac:(apply AP; auto)). lia.
        -- exists a. split; auto. split; [apply AP; auto|]. intros y Hy. apply AP in Hy. destruct Hy as [Hy| ->]; [specialize (M0 y Hy)|]; lia.
      * apply IH.
        -- intros x. rewrite in_app_iff, HT. unfold best_in. split.
           ++ intros [(Hx & Mx)|[<-|[]]]; (split; [apply AP; auto|]); intros y Hy; apply AP in Hy; destruct Hy as [Hy| ->]; solve [lia|exact (Mx _ Hy)|specialize (Mx p0 I0); lia|specialize (M0 y Hy); lia].
           ++ intros (Hx & Mx). apply AP in Hx. destruct Hx as [Hx| ->]; [left|right; left; auto]. split; auto. intros y Hy. apply Mx, AP. auto.
        -- exists p0. split; auto. split; [apply AP; auto|]. intros y Hy. apply AP in Hy. destruct Hy as [Hy| ->]; [auto|lia].
      * apply IH.
        -- intros x. rewrite HT. unfold best_in. split.
           ++ intros (Hx & Mx). split; [apply AP; auto|]. intros y Hy. apply AP in Hy. destruct Hy as [Hy| ->]; auto. specialize (Mx p0 I0). lia.
           ++ intros (Hx & Mx). apply AP in Hx. destruct Hx as [Hx| ->]; [split; auto; intros y Hy; apply Mx, AP; auto|]. specialize (Mx p0 ltac:(apply AP; auto)). lia.
        -- exists p0. split; auto. split; [apply AP; auto|]. intros y Hy. apply AP in Hy. destruct Hy as [Hy| ->]; [auto|lia].
    + subst pre. apply IH.
      * intros x. unfold best_in. cbn. split; [intros [<-|[]]; split; auto; intros y [<-|[]]; lia|tauto].
      * exists a. unfold best_in. cbn. split; auto. split; auto. intros y [<-|[]]; lia.
Qed.
End ChoiceProofs.

(** ** Theorem: the choice of a processor *)
(** Some processor is chosen if one is left; without individual block weights the
    choices are the processors with the smallest increase of the cost. *)
Theorem C90_choice rate fit un : (un <> [] -> choices rate fit un <> []) /\ (forall p, In p (choices rate fit un) -> In p un) /\
  ((forall p, fit p = true) -> forall p, In p (choices rate fit un) <-> (In p un /\ forall x, In x un -> rate p <= rate x)).
Proof.
  split; [apply choices_nonempty|]. split.
  - intros p Hp. apply choice_in in Hp. destruct Hp as [Hp|[]]; auto.
  - intros F p. apply (choice_best rate fit un F [] [] None false); auto. intros x. unfold best_in. cbn. tauto.
Qed.
(** With individual block weights a processor that is too small can be chosen
    although another one is large enough: best_is_balanced is set before the
    comparison that should prefer the first balanced processor (225-226). *)
Theorem C90_refuted_balanced_choice : exists rate fit un, (exists p, In p un /\ fit p = true) /\ (forall p, In p (choices rate fit un) -> fit p = false).
Proof.
  exists (fun p => if (p =? 0)%nat then 1 else 2), (fun p => (p =? 1)%nat), [0; 1]%nat. split; [exists 1%nat; cbn; auto|]. cbn. intros p [<-|[]]. reflexivity.
Qed.
(** If no processor is large enough for the seed, there is no candidate, and line
    88 reads the first element of an empty vector. *)
Theorem C90_refuted_seed : exists L deg un required, un <> [] /\ seed_candidates true L deg un required = [].
Proof. exists (fun _ => 3), (fun _ => 1), [0; 1]%nat, 4. split; [discriminate|reflexivity]. Qed.

(** ** The construction *)
Section GreedyProofs.
Variables (H : hypergraph) (fixed_to : nat -> option nat).
Variables (individual : bool) (L deg : nat -> Z).
Variable rate : partition -> nat -> nat -> Z.
Hypothesis WF : wf_hg H.
Let k := length (nodes H).
(** every block has at most one fixed node *)
Hypothesis FX : forall x y p, In x (nodes H) -> In y (nodes H) -> fixed_to x = Some p -> fixed_to y = Some p -> x = y.
Hypothesis FK : forall x p, In x (nodes H) -> fixed_to x = Some p -> (p < k)%nat.

Record ginv (s : gstate) : Prop := {
  n_out : forall x, ~ In x (nodes H) -> g_P s x = None;
  n_blk : forall x p, g_P s x = Some p -> (p < k)%nat /\ ~ In p (g_un s);
  n_inj : forall x y p, g_P s x = Some p -> g_P s y = Some p -> x = y;
  n_un : forall p, In p (g_un s) -> (p < k)%nat;
  n_nd : NoDup (g_un s);
  n_cnt : (length (g_un s) + length (filter (fun x => negb (unassigned (g_P s) x)) (nodes H)) = k)%nat;
  n_q : forall x, In x (g_q s) -> In x (nodes H) /\ is_fixed fixed_to x = false;
  n_fix : forall x p, g_P s x = Some p -> forall r, fixed_to x = Some r -> p = r
}.
Lemma filter_upd_len (f g : nat -> bool) l u : NoDup l -> In u l -> (forall x, x <> u -> f x = g x) -> f u = true -> g u = false -> (length (filter f l) = S (length (filter g l)))%nat.
Proof.
  induction 1 as [|a l Na ND IH]; intros Hu E Fu Gu; [destruct Hu|]. cbn. destruct Hu as [->|Hu].
  - rewrite Fu, Gu. cbn. f_equal. f_equal. apply filter_ext_in. intros x Hx. apply E. intros ->. contradiction.
  - rewrite (E a) by (intros ->; contradiction). destruct (g a); cbn; rewrite IH; auto.
Qed.
Lemma check_in P q x : In x (check H P q) -> In x q \/ (q = [] /\ In x (nodes H) /\ unassigned P x = true).
Proof.
  unfold check. destruct q as [|a q]; [|auto]. destruct (filter (unassigned P) (nodes H)) as [|y r] eqn:E; intros X; [destruct X|]. destruct X as [<-|[]].
  right. split; auto. apply filter_In. rewrite E. left; auto.
Qed.
Lemma check_nil P q : check H P q = [] -> forall x, In x (nodes H) -> unassigned P x = false.
Proof.
  unfold check. destruct q as [|a q]; [|discriminate]. destruct (filter (unassigned P) (nodes H)) as [|y r] eqn:E; [|discriminate]. intros _ x Hx.
  destruct (unassigned P x) eqn:U; auto. assert (X : In x (filter (unassigned P) (nodes H))) by (apply filter_In; auto). rewrite E in X. destruct X.
Qed.
(** the fixed nodes are assigned *)
Definition fixed_done (s : gstate) : Prop := forall x, In x (nodes H) -> is_fixed fixed_to x = true -> unassigned (g_P s) x = false.
Lemma assign_inv s u p chk : ginv s -> In u (nodes H) -> unassigned (g_P s) u = true -> In p (g_un s) ->
  (forall r, fixed_to u = Some r -> p = r) -> (chk = true -> fixed_done s \/ False) -> ginv (assign H fixed_to s u p chk).
Proof.
  intros [I1 I2 I3 I4 I5 I6 I7 I8] Hu Uu Hp Fu Fd. unfold assign. cbv zeta. constructor; cbn [g_P g_un g_q].
  - intros x Hx. unfold upd. destruct (Nat.eqb_spec x u) as [->|]; [contradiction|auto].
  - intros x r. unfold upd. destruct (Nat.eqb_spec x u) as [->|N].
    + intros E. injection E as <-. split; [auto|]. rewrite filter_In, Nat.eqb_refl. intros (_ & X). discriminate.
    + intros E. destruct (I2 x r E) as (A & B). split; auto. rewrite filter_In. tauto.
  - intros x y r. unfold upd. destruct (Nat.eqb_spec x u) as [->|N], (Nat.eqb_spec y u) as [->|N']; auto.
    + intros E E'. injection E as <-. destruct (I2 y p E'). contradiction.
    + intros E E'. injection E' as <-. destruct (I2 x p E). contradiction.
    + apply I3.
  - intros r. rewrite filter_In. intros (X & _). auto.
  - now apply NoDup_filter.
  - rewrite (filter_upd_len (fun x => negb (unassigned (upd (g_P s) u (Some p)) x)) (fun x => negb (unassigned (g_P s) x)) (nodes H) u); auto.
    + assert (X : (length (g_un s) = S (length (filter (fun x => negb (x =? p)%nat) (g_un s))))%nat).
      { rewrite <- (filter_upd_len (fun _ => true) (fun x => negb (x =? p)%nat) (g_un s) p); auto.
        - f_equal. symmetry. clear. induction (g_un s) as [|a l IH]; cbn; [auto|now rewrite IH].
        - intros x N. symmetry. now rewrite (proj2 (Nat.eqb_neq x p) N).
        - now rewrite Nat.eqb_refl. }
      lia.
    + apply (wf_nodes H WF).
    + intros x N. unfold unassigned, upd. now rewrite (proj2 (Nat.eqb_neq x u) N).
    + unfold unassigned, upd. now rewrite Nat.eqb_refl.
    + now rewrite Uu.
  - set (P := upd (g_P s) u (Some p)).
    assert (Q : forall x, In x (filter (fun x => unassigned P x && negb (is_fixed fixed_to x)) (nodup Nat.eq_dec (flat_map (pins H) (filter (fun e => negb (g_vis s e)) (inc H u)))) ++ g_q s) -> In x (nodes H) /\ is_fixed fixed_to x = false).
    { intros x Hx. apply in_app_iff in Hx. destruct Hx as [Hx|Hx]; [|auto]. apply filter_In in Hx. destruct Hx as (Hx & B). apply andb_true_iff in B. destruct B as (_ & B). apply negb_true_iff in B. split; auto.
      apply nodup_In, in_flat_map in Hx. destruct Hx as (e & He & Hx). apply filter_In in He. destruct He as (He & _). apply (wf_inc H WF u e Hu) in He. apply (wf_pins_nodes H WF e x); tauto. }
    intros x Hx. destruct chk; [|auto]. apply check_in in Hx. destruct Hx as [Hx|(_ & Hx & U)]; [auto|]. split; auto.
    destruct (is_fixed fixed_to x) eqn:F; auto. destruct (Fd eq_refl) as [Fd'|[]]. specialize (Fd' x Hx F). revert U Fd'. unfold P, unassigned, upd.
    destruct (Nat.eqb_spec x u) as [->|]; congruence.
  - intros x r. unfold upd. destruct (Nat.eqb_spec x u) as [->|N]; [|apply I8]. intros E. injection E as <-. exact Fu.
Qed.
Lemma preassign_inv : ginv (preassign H fixed_to k) /\ fixed_done (preassign H fixed_to k) /\
  (forall x, is_fixed fixed_to x = false -> g_P (preassign H fixed_to k) x = None).
Proof.
  unfold preassign.
  assert (G : forall l s, NoDup l -> (forall x, In x l -> In x (nodes H)) -> ginv s -> (forall x, In x l -> g_P s x = None) ->
    (forall p, (p < k)%nat -> ~ In p (g_un s) -> exists y, In y (nodes H) /\ ~ In y l /\ fixed_to y = Some p) ->
    (forall x, is_fixed fixed_to x = false -> g_P s x = None) ->
    let r := fold_left (fun s x => match fixed_to x with Some p => assign H fixed_to s x p false | None => s end) l s in
    ginv r /\ (forall x, In x (nodes H) -> is_fixed fixed_to x = true -> (In x l \/ unassigned (g_P s) x = false) -> unassigned (g_P r) x = false) /\
    (forall x, is_fixed fixed_to x = false -> g_P r x = None)).
  { induction l as [|a l IH]; intros s ND Hl I Hn Hu Hf; cbn [fold_left]; [split; [auto|split; [|auto]]; intros x _ _ [[]|X]; auto|].
    apply NoDup_cons_iff in ND. destruct ND as (Na & ND). destruct (fixed_to a) as [p|] eqn:Ea.
    - assert (Hp : In p (g_un s)).
      { destruct (in_dec Nat.eq_dec p (g_un s)) as [|N]; auto. exfalso. destruct (Hu p (FK a p (Hl a (or_introl eq_refl)) Ea) N) as (y & Hy & Ny & Ey).
        apply Ny. left. apply (FX a y p); auto. apply Hl; left; auto. }
      specialize (IH (assign H fixed_to s a p false) ND ltac:(intros; apply Hl; right; auto)). destruct IH as (A & B & C).
      + apply assign_inv; auto; [apply Hl; left; auto|unfold unassigned; rewrite Hn by (left; auto); auto| |discriminate]. intros r E. congruence.
      + intros x Hx. cbn. unfold upd. destruct (Nat.eqb_spec x a) as [->|]; [contradiction|]. apply Hn. right; auto.
      + cbn [assign g_un]. intros r Hr Nr. destruct (Nat.eq_dec r p) as [->|N].
        * exists a. repeat split; auto. apply Hl; left; auto.
        * destruct (Hu r Hr) as (y & Hy & Ny & Ey); [|exists y; repeat split; auto; intros X; apply Ny; right; auto].
          intros X. apply Nr. apply filter_In. split; auto. now rewrite (proj2 (Nat.eqb_neq r p) N).
      + intros x Fx. cbn. unfold upd. destruct (Nat.eqb_spec x a) as [->|]; [unfold is_fixed in Fx; rewrite Ea in Fx; discriminate|auto].
      + split; [exact A|split; [|exact C]]. intros x Hx Fx [[->|Hx']|U]; apply B; auto; right; cbn [assign g_P]; unfold unassigned, upd.
        * now rewrite Nat.eqb_refl.
        * destruct (x =? a)%nat; auto.
    - destruct (IH s ND) as (A & B & C); auto.
      + intros; apply Hl; right; auto.
      + intros; apply Hn; right; auto.
      + intros p Hp Np. destruct (Hu p Hp Np) as (y & Hy & Ny & Ey). exists y. repeat split; auto. intros X. apply Ny. right; auto.
      + split; [exact A|split; [|exact C]]. intros x Hx Fx [[->|Hx']|U]; [unfold is_fixed in Fx; rewrite Ea in Fx; discriminate|apply B; auto|apply B; auto]. }
  destruct (G (nodes H) (mkG (fun _ => None) (seq 0 k) [] (fun _ => false))) as (A & B & C); auto.
  - apply (wf_nodes H WF).
  - constructor; cbn [g_P g_un g_q]; auto; try discriminate.
    + intros p Hp. apply in_seq in Hp. lia.
    + apply seq_NoDup.
    + rewrite seq_length. cbn. rewrite (proj2 (length_zero_iff_nil _)); [unfold k; lia|]. clear. induction (nodes H); cbn; auto.
    + intros x [].
  - cbn. intros p Hp N. exfalso. apply N, in_seq. lia.
  - split; [exact A|split; [|exact C]]. intros x Hx Fx. apply B; auto.
Qed.
Lemma seed_in l : forall st p, In p (fst (fold_left (seed_step deg) l st)) -> In p l \/ In p (fst st).
Proof.
  induction l as [|a l IH]; intros st p Hp; cbn [fold_left] in Hp; [auto|]. apply IH in Hp. destruct Hp as [Hp|Hp]; [left; right; auto|].
  destruct st as [t [b|]]; cbn [seed_step] in Hp; [|destruct Hp as [<-|[]]; left; left; auto].
  destruct (deg a <? b); [destruct Hp as [<-|[]]; left; left; auto|]. destruct (deg a =? b); cbn [fst] in *; [|auto].
  apply in_app_iff in Hp. destruct Hp as [Hp|[<-|[]]]; [auto|left; left; auto].
Qed.
Definition quiet (s : gstate) : Prop := g_q s = [] -> forall x, In x (nodes H) -> unassigned (g_P s) x = false.
Lemma gloop_inv s r : gloop H fixed_to individual L rate s r -> ginv s -> fixed_done s -> quiet s -> ginv r /\ quiet r /\ g_q r = [] /\ fixed_done r.
Proof.
  induction 1 as [s E|P un q1 u q2 vis r U G IH|P un q1 u q2 vis p r U Hp G IH]; intros I Fd Qt; [auto| |].
  - apply IH.
    + destruct I as [I1 I2 I3 I4 I5 I6 I7 I8]. constructor; auto. cbn [g_q]. intros x Hx. apply check_in in Hx. destruct Hx as [Hx|(_ & Hx & U')].
      * apply I7. cbn. apply in_app_iff in Hx. apply in_app_iff. cbn. tauto.
      * split; auto. destruct (is_fixed fixed_to x) eqn:F; auto. specialize (Fd x Hx F). cbn in Fd. congruence.
    + exact Fd.
    + intros E. cbn in *. exact (check_nil _ _ E).
  - destruct (n_q _ I u) as (Hu & Fu); [cbn; apply in_app_iff; right; left; auto|].
    assert (Hp' : In p un) by (exact (proj1 (proj2 (C90_choice (rate P u) (fun x => negb individual || (nw H u <=? L x)) un)) p Hp)). apply IH.
    + apply assign_inv; auto.
      * destruct I as [I1 I2 I3 I4 I5 I6 I7 I8]. constructor; auto. cbn in *. intros x Hx. apply I7. apply in_app_iff in Hx. apply in_app_iff. cbn. tauto.
      * intros r' E. unfold is_fixed in Fu. rewrite E in Fu. discriminate.
    + intros x Hx Fx. specialize (Fd x Hx Fx). cbn in *. unfold unassigned, upd in *. destruct (x =? u)%nat; auto.
    + intros E. cbn in *. exact (check_nil _ _ E).
Qed.

(** ** Theorem: the greedy construction *)
(** If the seed is not fixed, every node gets a processor of its own, and fixed
    nodes get theirs. *)
Theorem C90_greedy seed P : In seed (nodes H) -> is_fixed fixed_to seed = false -> greedy H fixed_to individual L deg rate k seed P ->
  one_to_one H P /\ (forall x p, In x (nodes H) -> P x = Some p -> (p < k)%nat) /\ (forall x p, In x (nodes H) -> fixed_to x = Some p -> P x = Some p).
Proof.
  intros Hs Fs (s & r & S & G & ->). destruct preassign_inv as (I & Fd & Nf).
  assert (X : ginv s /\ fixed_done s /\ quiet s).
  { destruct S as [F|p _ Hp]; [congruence|]. split; [|split].
    - apply assign_inv; auto.
      + unfold unassigned. now rewrite Nf.
      + apply seed_in in Hp. destruct Hp as [Hp|[]]. apply filter_In in Hp. tauto.
      + intros r' E. unfold is_fixed in Fs. rewrite E in Fs. discriminate.
    - intros x Hx Fx. specialize (Fd x Hx Fx). cbn [assign g_P]. unfold unassigned, upd in *. destruct (x =? seed)%nat; auto.
    - intros E. cbn [assign g_q g_P] in *. exact (check_nil _ _ E). }
  destruct X as (Is & Fds & Qs). destruct (gloop_inv s r G Is Fds Qs) as (Ir & Qr & Er & Fdr). specialize (Qr Er).
  split; [split|split].
  - intros v Hv E. specialize (Qr v Hv). unfold unassigned in Qr. rewrite E in Qr. discriminate.
  - intros u v Hu Hv E. specialize (Qr u Hu). unfold unassigned in Qr. destruct (g_P r u) as [p|] eqn:E'; [|discriminate]. apply (n_inj _ Ir u v p); auto.
  - intros x p _ E. apply (n_blk _ Ir x p E).
  - intros x p Hx F. specialize (Qr x Hx). unfold unassigned in Qr. destruct (g_P r x) as [p'|] eqn:E'; [|discriminate]. f_equal. apply (n_fix _ Ir x p' E' p F).
Qed.
(** The loop never runs out of processors. *)
Theorem C90_processor_left s u : ginv s -> In u (nodes H) -> unassigned (g_P s) u = true -> choices (rate (g_P s) u) (fun x => negb individual || (nw H u <=? L x)) (g_un s) <> [].
Proof.
  intros I Hu U. apply C90_choice. intros E. pose proof (n_cnt _ I) as C. rewrite E in C. cbn [length] in C.
  assert (Z0 : (length (filter (fun x => negb (unassigned (g_P s) x)) (nodes H)) < length (nodes H))%nat).
  { clear - Hu U. induction (nodes H) as [|a l IH]; [destruct Hu|]. cbn [filter length]. destruct Hu as [->|Hu].
    - rewrite U. cbn. assert (X : forall f : nat -> bool, (length (filter f l) <= length l)%nat) by (intros f; clear; induction l as [|b l IH]; cbn; [lia|destruct (f b); cbn; lia]). specialize (X (fun x => negb (unassigned (g_P s) x))). lia.
    - specialize (IH Hu). destruct (negb (unassigned (g_P s) a)); cbn; lia. }
  unfold k in C. lia.
Qed.
End GreedyProofs.

(** ** Theorem: a fixed seed can leave nodes unassigned. *)
(** If the seed is fixed, nothing is put into the queue for it (179), so nodes
    that are not connected to fixed nodes are never assigned; with no hyperedge at
    all, every other node stays unassigned.  Its cost does not count the unassigned
    nodes, so the result can be taken as the best mapping (287-305), and the
    assignment to block -1 is applied (310-315). *)
Definition gH : hypergraph := mkHG [0;1;2]%nat [0]%nat (fun _ => [1;2]%nat) (fun v => if (v =? 0)%nat then [] else [0]%nat) (fun _ => 1) (fun _ => 1).
Definition gfix (x : nat) : option nat := if (x =? 0)%nat then Some 0%nat else None.
Definition gdist (s : nat -> bool) : Z :=
  match s 0%nat, s 1%nat, s 2%nat with
  | true, true, true => 11 | true, true, false => 10 | false, true, true => 1 | true, false, true => 11 | _, _, _ => 0
  end.
Theorem C90_refuted_greedy individual L deg rate : exists P, greedy gH gfix individual L deg rate 3 0 P /\ P 0%nat = Some 0%nat /\ P 1%nat = None /\ P 2%nat = None /\
  mapping_cost gH gdist P = 0.
Proof.
  eexists. split; [eexists _, _; split; [apply sd_fixed; reflexivity|split; [apply gl_end; reflexivity|reflexivity]]|]. repeat split.
Qed.

(** ** Example: nodes 1 and 2 as seeds, with node 0 fixed. *)
Lemma gH_wf : wf_hg gH.
Proof.
  apply wf_hgb_sound. reflexivity.
Qed.
Theorem C90_greedy_example : (exists P, greedy gH gfix false (fun _ => 0) (fun p => if (p =? 1)%nat then 11 else if (p =? 0)%nat then 10 else 1) (fun _ _ _ => 0) 3 1 P /\ map P [0;1;2]%nat = [Some 0; Some 2; Some 1]%nat) /\
  choices (fun p => if (p =? 1)%nat then 1 else 2) (fun _ => true) [0;1;2]%nat = [1]%nat.
Proof.
  split; [|reflexivity]. eexists. split; [eexists _, _; split; [|split; [|reflexivity]]|].
  - eapply sd_assign with (p := 2%nat); [reflexivity|left; reflexivity].
  - eapply (gl_assign _ _ _ _ _ _ _ [] 2%nat [] _ 1%nat); [reflexivity|left; reflexivity|]. apply gl_end. reflexivity.
  - reflexivity.
Qed.

(** *** Fixed vertices of the contracted hypergraph *)
(** initial_mapping.cpp:199-207: node i of the contracted hypergraph is fixed if
    block i contains a fixed vertex.  If some block is empty, the contracted
    hypergraph is constructed anew (140-176), without fixed vertices. *)
Definition contracted_fixed (k : nat) (fixed_block block_empty : nat -> bool) : nat -> bool :=
  if existsb block_empty (seq 0 k) then fun _ => false else fixed_block.

(** ** Theorem: an empty block, and the local search moves a block that contains a fixed vertex. *)
(** Three blocks, the last one is empty, block 0 contains a fixed vertex; a
    hyperedge connects blocks 0 and 1.  The cost falls from 10 to 1. *)
Definition kH : hypergraph := mkHG [0;1;2]%nat [0]%nat (fun _ => [0;1]%nat) (fun v => if (v =? 2)%nat then [] else [0]%nat) (fun _ => 1) (fun _ => 1).
Definition kP : partition := fun x => Some x.
Definition kfixed (x : nat) : bool := (x =? 0)%nat.
Definition kempty (x : nat) : bool := (x =? 2)%nat.
Theorem C90_refuted_fixed : exists R, improve kH gdist (contracted_fixed 3 kfixed kempty) false (fun _ => 0) kP R /\ kfixed 0 = true /\ R 0%nat = Some 2%nat /\
  mapping_cost kH gdist kP = 10 /\ mapping_cost kH gdist R = 1.
Proof.
  eexists. split; [|split; [reflexivity|split]].
  - unfold improve. eapply im_next.
    + { eapply pass_run; [reflexivity| |].
        - eapply ss_step; [eapply (st_swap _ _ _ _ _ _ _ _ [_] [_]); reflexivity|]. cbn [app].
          eapply ss_step; [eapply (st_moved _ _ _ _ _ _ _ _ [] [_]); reflexivity|]. cbn [app].
          eapply ss_step; [eapply (st_moved _ _ _ _ _ _ _ _ [] []); reflexivity|]. cbn [app]. apply ss_refl.
        - reflexivity. }
    + reflexivity.
    + eapply im_last.
      { eapply pass_run; [reflexivity| |].
        - eapply ss_step; [eapply (st_swap _ _ _ _ _ _ _ _ [_] [_]); reflexivity|]. cbn [app].
          eapply ss_step; [eapply (st_moved _ _ _ _ _ _ _ _ [] [_]); reflexivity|]. cbn [app].
          eapply ss_step; [eapply (st_moved _ _ _ _ _ _ _ _ [] []); reflexivity|]. cbn [app]. apply ss_refl.
        - reflexivity. }
      reflexivity.
  - reflexivity.
  - split; reflexivity.
Qed.
(** The hypotheses of the theorems about the local search are met. *)
Theorem C90_hypotheses : wf_hg kH /\ (forall s t, (forall b, s b = t b) -> gdist s = gdist t) /\ one_to_one kH kP /\
  ((forall s, 0 <= gdist s) /\ (forall e, In e (edges kH) -> 0 <= ew kH e)) /\ wf_hg gH.
Proof.
  split; [|split; [|split; [|split; [|apply gH_wf]]]].
  - apply wf_hgb_sound. reflexivity.
  - intros s t E. unfold gdist. now rewrite !E.
  - split; [discriminate|]. intros u v _ _ E. now injection E.
  - split; [|cbn; lia]. intros s. unfold gdist. destruct (s 0%nat), (s 1%nat), (s 2%nat); lia.
Qed.
Print Assumptions C90_greedy.
Print Assumptions C90_refuted_fixed.
