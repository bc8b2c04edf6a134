(** JetExamples.v - concrete runs of the deterministic Jet refiner. *)
From Coq Require Import FunctionalExtensionality.
From Verif Require Import Base Spec SpecLemmas PHG PHGProofs Conc ConcMore ConcRun Objective GainCache Metrics PropsA WfCheck DetLP DetLPApply DetLPThms DetLPTotal DetReb DetRebThms DetLPProps DetRebProps ParLoop Afterburner AfterburnerThms Afterburner2 AfterburnerProps Jet JetThms JetRun JetProps.

(** A call with one dynamic round and one round without improvement, where every improvement counts as small. *)
Lemma one_round H k L dead fixed may prio scores iso o jbest neg hdt D imb dlt large_k removed detmax q i hv B0 s s' q' i' ret :
  jet H k L dead fixed may prio scores iso o jbest neg hdt D imb dlt (fun _ _ => false) large_k removed detmax 1 1 q i hv B0 s s' q' i' ret ->
  exists x1 g, jround H k L dead fixed may prio scores iso o jbest neg hdt large_k removed detmax 0 (mkJ s (fun _ => false) hv) x1 g /\
   ((q - g <? q) && isbal k L large_k removed s && isbal k L large_k removed (js x1) || negb (isbal k L large_k removed s) && dlt (imb (wts k (js x1))) i = true ->
    s' = js x1 /\ q' = q - g /\ i' = imb (wts k (js x1)) /\ ret = (q - g <? q)).
Proof.
  intros (x & b & R & -> & -> & -> & ->). inversion R as [|? ? ? ? x1 b1 ? ? R1 C X|? ? ? ? x1 b1 s2 g ? ? R1 C AP X]; subst; inversion X; subst; clear X R.
  - cbn [Jet.bq js jhv] in R1. inversion R1 as [? ? ? ? E2|? ? ? ? y1 h n1 ? ? E2 R2 cb cq ci C2 En2 X2|? ? ? ? y1 h ? ? E2 R2 cb cq ci C2 X2]; subst; [lia| |].
    + exists y1, h. split; [exact R2|]. intros _. inversion X2; subst; [cbn; auto|lia|lia].
    + exists y1, h. split; [exact R2|]. intros Y. cbn [Jet.bq Jet.bi Jet.was] in C2. unfold cq, ci in C2. rewrite Y in C2. discriminate.
  - cbn [Jet.bq js jhv] in R1. inversion R1 as [? ? ? ? E2|? ? ? ? y1 h n1 ? ? E2 R2 cb cq ci C2 En2 X2|? ? ? ? y1 h ? ? E2 R2 cb cq ci C2 X2]; subst; [lia| |].
    + exfalso. inversion X2; subst; [cbn in C; discriminate|lia|lia].
    + exists y1, h. split; [exact R2|]. intros Y. cbn [Jet.bq Jet.bi Jet.was] in C2. unfold cq, ci in C2. rewrite Y in C2. discriminate.
Qed.
(** The block with the smallest objective after the move (the lowest one among several), and the change of the objective. *)
Definition jbstep (H : hypergraph) (o : objective) (P : partition) (v : nat) (best : nat * Z) (b : nat) : nat * Z :=
  let g := obj_spec o H (move P v b) - obj_spec o H P in if g <? snd best then (b, g) else best.
Definition jb (H : hypergraph) (k : nat) (o : objective) (P : partition) (v : nat) : nat * Z :=
  fold_left (jbstep H o P v) (seq 1 (k - 1)) (0%nat, obj_spec o H (move P v 0) - obj_spec o H P).
Lemma jb_range H k o P v : (0 < k)%nat -> (fst (jb H k o P v) < k)%nat.
Proof.
  intros K. unfold jb. assert (X : forall l acc, (fst acc < k)%nat -> (forall b, In b l -> (b < k)%nat) -> (fst (fold_left (jbstep H o P v) l acc) < k)%nat).
  { induction l as [|b l IH]; intros acc A B; [exact A|]. cbn [fold_left]. apply IH; [|intros; apply B; right; assumption]. unfold jbstep. destruct (_ <? _); [cbn; apply B; left; reflexivity|exact A]. }
  apply X; [cbn; exact K|]. intros b Hb. apply in_seq in Hb. lia.
Qed.
Lemma km1_ne : Okm1 <> Osoed.
Proof. discriminate. Qed.
Definition maxw (l : list Z) : Z := fold_right Z.max 0 l.
(** Hyperedges {0,1} of weight 3 and {0,2,3} of weight 2; node 1 is in block 0, the others in block 1.  Nodes 0 (gain -1) and 1 (gain -3)
    want to change sides; the afterburner sees that 0 must not move after 1 has moved. *)
Definition jP : partition := fun v => nth v [Some 1;Some 0;Some 1;Some 1]%nat None.
Lemma j_started : started aH (state_of aH 2 jP).
Proof.
  apply state_of_started; [apply wf_hgb_sound; vm_compute; reflexivity| |].
  - intros v b. unfold jP. do 4 (destruct v as [|v]; [cbn; intros E; inversion E; lia|]). cbn. destruct v; discriminate.
  - intros v Hv. cbn in Hv. destruct Hv as [<-|[<-|[<-|[<-|[]]]]]; cbn; eexists; (split; [reflexivity|lia]).
Qed.
Lemma j_input : jet_input aH 2 rsc (fun _ _ => 0) (jb aH 2 Okm1) Z.ltb.
Proof.
  constructor.
  - constructor; [cbn; lia|vm_compute; discriminate|intros P u b g []|intros P u b g []].
  - intros P v. apply jb_range. lia.
  - intros a b c. rewrite !Z.ltb_lt. lia.
  - apply Z.ltb_irrefl.
Qed.
Theorem C69_example : exists s' q' i' ret,
  jet aH 2 (fun _ => 4) (fun _ => 4) (fun _ => false) (fun _ _ _ => true) (fun g _ => g) rsc (fun _ _ => 0) Okm1 (jb aH 2 Okm1) (fun _ _ => 0) 1000 Z maxw Z.ltb (fun _ _ => false) true 0 0
    1 1 3 3 (fun _ => false) (fun _ => None) (state_of aH 2 jP) s' q' i' ret /\ q' = 0 /\ ret = true /\ map (part s') (seq 0 4) = [Some 1;Some 1;Some 1;Some 1]%nat.
Proof.
  destruct (C70_completes aH 2 (fun _ => 4) (fun _ => 4) (fun _ => false) (fun _ _ _ => true) (fun g _ => g) rsc (fun _ _ => 0) Okm1 (jb aH 2 Okm1) (fun _ _ => 0) 1000 Z maxw Z.ltb (fun _ _ => false) true 0 0 j_input
    1 1 3 3 (fun _ => false) (fun _ => None) (state_of aH 2 jP)) as (s' & q' & i' & ret & R); [intros [|[|[|e]]]; cbn; lia|apply j_started|reflexivity|reflexivity|reflexivity|].
  exists s', q', i', ret. split; [exact R|]. destruct (one_round _ _ _ _ _ _ _ _ _ _ _ _ _ _ _ _ _ _ _ _ _ _ _ _ _ _ _ _ R) as (x1 & g & R1 & Y).
  destruct j_input as [RI JK DT DI]. destruct (jround_ok aH 2 (fun _ => 4) (fun _ => 4) (fun _ => false) (fun _ _ _ => true) (fun g _ => g) rsc (fun _ _ => 0) Okm1 (jb aH 2 Okm1) (fun _ _ => 0) 1000%nat true 0 0%nat RI JK _ _ _ _ (conj j_started eq_refl : ready aH 2 (js (mkJ (state_of aH 2 jP) (fun _ => false) (fun _ => false)))) R1) as (RD1 & G & _).
  cbn [js] in G. change (part (state_of aH 2 jP)) with jP in G.
  destruct (C69_round aH 2 (fun _ => 4) (fun _ => 4) (fun _ => false) (fun _ _ _ => true) (fun g _ => g) rsc (fun _ _ => 0) Okm1 (jb aH 2 Okm1) (fun _ _ => 0) 1000 Z Z.ltb true 0 0 j_input _ _ _ _ (or_introl km1_ne) (j_started : started aH (js (mkJ (state_of aH 2 jP) (fun _ => false) (fun _ => false)))) eq_refl R1) as [OK _].
  assert (EP : part (js x1) = fun v => nth v [Some 1;Some 1;Some 1;Some 1]%nat None).
  { rewrite OK.
    - apply functional_extensionality. intros v. do 4 (destruct v as [|v]; [vm_compute; reflexivity|]). cbn [js part state_of jlk]. unfold jP. 
      assert (M : mem (S (S (S (S v)))) (nodes aH) = false) by reflexivity. rewrite M. reflexivity.
    - split; [|left; reflexivity]. intros b Hb. destruct b as [|[|b]]; [vm_compute; discriminate|vm_compute; discriminate|lia]. }
  assert (G3 : g = 3) by (rewrite G, EP; vm_compute; reflexivity). 
  destruct Y as (-> & -> & _ & ->).
  - rewrite (isbal_P aH 2 (fun _ => 4) true 0 _ RD1), EP, G3. vm_compute. reflexivity.
  - rewrite EP, G3. vm_compute. auto.
Qed.
(** The return value only reports a better objective: an unacceptable partition is repaired, and the call returns false. *)
Lemma r_jet_input : jet_input rH 3 rsc (fun _ _ => 0) (jb rH 3 Okm1) Z.ltb.
Proof.
  constructor; [apply r_input| | |].
  - intros P v. apply jb_range. lia.
  - intros a b c. rewrite !Z.ltb_lt. lia.
  - apply Z.ltb_irrefl.
Qed.
Theorem C69_refuted_return : exists H k L dead fixed may prio scores iso jbest neg hdt (imb : list Z -> Z) big large_k removed detmax q i hv B0 s s' q' i' ret,
  jet_input H k scores iso jbest Z.ltb /\ started H s /\ pk s = k /\ q = obj_spec Okm1 H (part s) /\ i = imb (map (block_weight H (part s)) (seq 0 k)) /\
  jet H k L dead fixed may prio scores iso Okm1 jbest neg hdt Z imb Z.ltb big large_k removed detmax 1 1 q i hv B0 s s' q' i' ret /\
  ~ acceptable H k L large_k removed (part s) /\ acceptable H k L large_k removed (part s') /\ ret = false.
Proof.
  set (LL := fun b => if Nat.eqb b 1 then 6 else 8).
  exists rH, 3%nat, LL, (fun _ => 6), (fun _ => false), (fun _ _ _ => true), (fun g _ => g), rsc, (fun _ _ => 0), (jb rH 3 Okm1), (fun _ _ => 0), 1000%nat, (fun l => nth 1 l 0), (fun _ _ => false), true, 0, 0%nat, 0, 7, (fun _ => false), (fun _ => None), (state_of rH 3 rP).
  destruct (C70_completes rH 3 LL (fun _ => 6) (fun _ => false) (fun _ _ _ => true) (fun g _ => g) rsc (fun _ _ => 0) Okm1 (jb rH 3 Okm1) (fun _ _ => 0) 1000 Z (fun l => nth 1 l 0) Z.ltb (fun _ _ => false) true 0 0 r_jet_input
    1 1 0 7 (fun _ => false) (fun _ => None) (state_of rH 3 rP)) as (s' & q' & i' & ret & R); [cbn; lia|apply r_started|reflexivity|reflexivity|reflexivity|].
  exists s', q', i', ret. split; [apply r_jet_input|]. split; [apply r_started|]. split; [reflexivity|]. split; [reflexivity|]. split; [reflexivity|]. split; [exact R|].
  assert (NA : ~ acceptable rH 3 LL true 0 rP) by (intros [X _]; specialize (X 1%nat ltac:(lia)); vm_compute in X; apply X; reflexivity). split; [exact NA|].
  destruct (one_round _ _ _ _ _ _ _ _ _ _ _ _ _ _ _ _ _ _ _ _ _ _ _ _ _ _ _ _ R) as (x1 & g & R1 & Y). destruct r_jet_input as [RI JK DT DI].
  destruct (jround_ok rH 3 LL (fun _ => 6) (fun _ => false) (fun _ _ _ => true) (fun g _ => g) rsc (fun _ _ => 0) Okm1 (jb rH 3 Okm1) (fun _ _ => 0) 1000%nat true 0 0%nat RI JK _ _ _ _ (conj r_started eq_refl : ready rH 3 (js (mkJ (state_of rH 3 rP) (fun _ => false) (fun _ => false)))) R1) as (RD1 & G & _).
  cbn [js] in G. assert (G3 : g = 0) by (rewrite G; reflexivity).
  destruct (C69_round rH 3 LL (fun _ => 6) (fun _ => false) (fun _ _ _ => true) (fun g _ => g) rsc (fun _ _ => 0) Okm1 (jb rH 3 Okm1) (fun _ _ => 0) 1000 Z Z.ltb true 0 0 r_jet_input _ _ _ _ (or_introl km1_ne) (r_started : started rH (js (mkJ (state_of rH 3 rP) (fun _ => false) (fun _ => false)))) eq_refl R1) as (_ & NOK & _).
  assert (EP : part (js x1) = reb_fun rH 3 LL (fun _ => 6) (fun _ => false) (fun _ _ _ => true) (fun g _ => g) rsc (fun _ _ => 0) (max_rounds 0) (fun _ => false) rP).
  { match type of NOK with ~ acceptable _ _ _ _ _ ?F -> _ => assert (EF : F = rP) end.
    { apply functional_extensionality. intros v. match goal with |- (if ?A && ?J && _ then _ else _) = _ => assert (EA : J = false) by reflexivity end. rewrite EA, andb_false_r. reflexivity. }
    rewrite EF in NOK. apply NOK. exact NA. }
  assert (OKP : acceptable rH 3 LL true 0 (part (js x1))).
  { split; [|left; reflexivity]. rewrite EP. intros b Hb. destruct b as [|[|[|b]]]; [vm_compute; discriminate..|lia]. }
  destruct Y as (-> & _ & _ & ->).
  - rewrite (isbal_P rH 3 LL true 0 _ RD1), (wts_P rH 3 LL _ RD1), EP, G3. vm_compute. reflexivity.
  - split; [exact OKP|]. rewrite G3. reflexivity.
Qed.
