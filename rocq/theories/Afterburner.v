(** Afterburner.v - the afterburner of the deterministic Jet refiner for hypergraphs,
    mt-kahypar/partition/refinement/deterministic/deterministic_jet_refiner.cpp:309-424 (hypergraphAfterburner).
    [gt v] is _gains_and_target[v]: the gain computed for v alone and its target block (its own block if v is not a candidate).
    std::sort of the pins (cpp:395-399) compares with a strict total order, so that it is insertion sort; the cases with fewer pins
    (cpp:375-393) are transcribed.  pinCountSnapshot is a copy of the pin counts of the hyperedge. *)
From Verif Require Import Base Spec SpecLemmas PHG PHGProofs Conc ConcMore ConcRun Objective GainCache Metrics PropsA DetLP DetLPThms DetRebThms ParLoop.

Section AB.
Variables (H : hypergraph) (o : objective) (s : phg) (gt : nat -> Z * nat).
Definition gn (v : nat) : Z := fst (gt v).
Definition tg (v : nat) : nat := snd (gt v).
(** The order of the afterburner. *)
Definition abef (u v : nat) : bool := (gn u <? gn v) || ((gn u =? gn v) && Nat.ltb u v).
Definition oeq (x y : option nat) : bool := match x, y with Some a, Some b => Nat.eqb a b | None, None => true | _, _ => false end.
Definition mover (v : nat) : bool := negb (oeq (part s v) (Some (tg v))).
(** afterburn_two_pins, cpp:314-350 *)
Definition tp_scan (ps : list nat) : option nat * option nat :=
  fold_left (fun ab pin => match fst ab with
     | None => (Some pin, None)
     | Some a => if (gn pin <? gn a) || ((gn a =? gn pin) && Nat.ltb pin a) then (Some pin, Some a) else (Some a, Some pin)
     end) ps (None, None).
Definition contrib2 (e : nat) : list (nat * Z) :=
  match tp_scan (pins H e) with
  | (Some a, Some b) =>
    (if mover a then
       if oeq (part s a) (part s b) then [(a, ew H e)]
       else if oeq (Some (tg a)) (part s b) then [(a, - ew H e)] else []
     else []) ++
    (if mover b then
       if oeq (part s b) (Some (tg a)) then [(b, ew H e)]
       else if Nat.eqb (tg b) (tg a) then [(b, - ew H e)] else []
     else [])
  | _ => []
  end.
(** cpp:360-400 *)
Definition sort_pins (l : list nat) : list nat :=
  match l with
  | [] => []
  | [a] => [a]
  | [a; b] => if abef a b then [a; b] else [b; a]
  | [a; b; c] =>
    let (a, c) := if abef a c then (a, c) else (c, a) in
    let (a, b) := if abef a b then (a, b) else (b, a) in
    let (b, c) := if abef b c then (b, c) else (c, b) in [a; b; c]
  | _ => isort abef l
  end.
(** cpp:402-416 *)
Fixpoint scan (e : nat) (pcs : nat -> Z) (l : list nat) : list (nat * Z) :=
  match l with
  | [] => []
  | v :: l => match part s v with
    | None => []
    | Some from =>
      let pf := pcs from - 1 in let pcs1 := upd pcs from pf in
      let pt := pcs1 (tg v) + 1 in let pcs2 := upd pcs1 (tg v) pt in
      let g := gain_of o (mkSync e from (tg v) (ew H e) (esize H e) pf pt) in
      (if g =? 0 then [] else [(v, g)]) ++ scan e pcs2 l
    end
  end.
(** afterburn_edge, cpp:352-417: the updates of _afterburner_gain. *)
Definition contrib (e : nat) : list (nat * Z) :=
  if Nat.eqb (length (pins H e)) 2 then contrib2 e else scan e (pc s e) (sort_pins (filter mover (pins H e))).

(** cpp:309-312, 419-424: the parallel loop over the active nodes. *)
Record ab := mkAB { vis : nat -> bool; ag : nat -> Z }.
Inductive bpc := BEdge (es : list nat) | BAdd (adds : list (nat * Z)) (es : list nat).
Definition bstep (l : bpc) (a : ab) : option (bpc * ab) :=
  match l with
  | BEdge [] => None
  | BEdge (e :: es) => if vis a e then Some (BEdge es, a) else Some (BAdd (contrib e) es, mkAB (upd (vis a) e true) (ag a))
  | BAdd [] es => Some (BEdge es, a)
  | BAdd ((v, x) :: adds) es => Some (BAdd adds es, mkAB (vis a) (upd (ag a) v (ag a v + x)))
  end.
Definition ab0 : ab := mkAB (fun _ => false) (fun _ => 0).
Definition afterburn (A : list nat) (a : ab) : Prop := par bstep (map (fun v => BEdge (inc H v)) A) ab0 a.

(** *** Specification: the partition in which every node that comes before v has been moved *)
Definition Pbef (v : nat) : partition := fun u => if abef u v then Some (tg u) else part s u.

Lemma abef_irr v : abef v v = false.
Proof. unfold abef. rewrite Z.ltb_irrefl, Nat.ltb_irrefl, andb_false_r. reflexivity. Qed.
Lemma abef_iff u v : abef u v = true <-> gn u < gn v \/ (gn u = gn v /\ (u < v)%nat).
Proof. unfold abef. rewrite orb_true_iff, andb_true_iff, Z.ltb_lt, Z.eqb_eq, Nat.ltb_lt. reflexivity. Qed.
Lemma abef_trans u v x : abef u v = true -> abef v x = true -> abef u x = true.
Proof. rewrite !abef_iff. lia. Qed.
Lemma abef_total u v : u <> v -> abef u v = false -> abef v u = true.
Proof. intros N F. destruct (abef v u) eqn:E; [reflexivity|]. exfalso. assert (X : ~ abef u v = true) by congruence. assert (Y : ~ abef v u = true) by congruence. rewrite abef_iff in X, Y. lia. Qed.
Lemma oeq_spec x y : oeq x y = true <-> x = y.
Proof. destruct x as [a|], y as [b|]; cbn; split; try congruence; try tauto; [intros E; apply Nat.eqb_eq in E; congruence|intros E; inversion E; apply Nat.eqb_refl]. Qed.
Lemma mover_spec v : mover v = true <-> part s v <> Some (tg v).
Proof. unfold mover. rewrite negb_true_iff. split; [intros E X; apply oeq_spec in X; congruence|]. intros N. destruct (oeq (part s v) (Some (tg v))) eqn:E; [apply oeq_spec in E; contradiction|reflexivity]. Qed.
Local Notation R := (fun u v => abef u v = true).
Lemma sort_pins_ok l : NoDup l -> StronglySorted R (sort_pins l) /\ Permutation l (sort_pins l).
Proof.
  intros N. assert (G : StronglySorted R (isort abef l) /\ Permutation l (isort abef l)).
  { split; [|apply isort_perm]. apply isort_sorted; [intros a b c; apply abef_trans| |exact N]. intros a b _ _ NE. destruct (abef a b) eqn:E; [reflexivity|apply abef_total; assumption]. }
  destruct l as [|a [|b [|c [|d l]]]]; cbn [sort_pins]; [split; repeat constructor|split; repeat constructor| | |exact G].
  - inversion N as [|? ? N1 _]; subst. assert (S2 : forall x y, abef x y = true -> StronglySorted R [x; y]) by (intros x y X; repeat constructor; exact X).
    destruct (abef a b) eqn:E; (split; [apply S2|]); [exact E|apply Permutation_refl|apply abef_total; [|exact E]; intros ->; apply N1; left; reflexivity|apply perm_swap].
  - inversion N as [|? ? N1 N2]; subst. inversion N2 as [|? ? N3 _]; subst.
    assert (AB : a <> b) by (intros ->; apply N1; left; reflexivity). assert (AC : a <> c) by (intros ->; apply N1; right; left; reflexivity). assert (BC : b <> c) by (intros ->; apply N3; left; reflexivity).
    clear G N N1 N2 N3.
    assert (S3 : forall x y z, abef x y = true -> abef y z = true -> StronglySorted R [x; y; z]).
    { intros x y z X Y. pose proof (abef_trans x y z X Y) as Z0. repeat first [apply SSorted_cons | apply SSorted_nil | apply Forall_cons | apply Forall_nil]; assumption. }
    destruct (abef a c) eqn:E1.
    + destruct (abef a b) eqn:E2.
      * destruct (abef b c) eqn:E3; split; [apply S3; assumption|apply Permutation_refl|apply S3; [exact E1|apply abef_total; assumption]|apply perm_skip, perm_swap].
      * assert (BA : abef b a = true) by (apply abef_total; assumption). rewrite E1. split; [apply S3; assumption|apply perm_swap].
    + assert (CA : abef c a = true) by (apply abef_total; assumption). destruct (abef c b) eqn:E2.
      * destruct (abef b a) eqn:E3; split; [apply S3; assumption|eapply perm_trans; [apply perm_skip, perm_swap|eapply perm_trans; [apply perm_swap|apply perm_skip, perm_swap]]|apply S3; [exact CA|apply abef_total; [congruence|exact E3]]|eapply perm_trans; [apply perm_skip, perm_swap|apply perm_swap]].
      * assert (BC2 : abef b c = true) by (apply abef_total; [congruence|assumption]). rewrite CA. split; [apply S3; assumption|eapply perm_trans; [apply perm_swap|apply perm_skip, perm_swap]].
Qed.
(** The sum of the updates of v. *)
Definition csum (l : list (nat * Z)) (v : nat) : Z := sumZ (fun x => if Nat.eqb (fst x) v then snd x else 0) l.
Lemma csum_app l l' v : csum (l ++ l') v = csum l v + csum l' v.
Proof. unfold csum. apply sumZ_app. Qed.
End AB.
