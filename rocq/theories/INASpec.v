(** What the incident net array has to do, without any of its pointers or
    version numbers: a forest of contraction histories.  Every node starts as
    a [Leaf] with its original incident nets; [App t tv] is "tv was appended
    to t", [Rem t R] is "the nets in R were removed from t". *)
From Coq Require Import List Arith Lia ZArith Bool Permutation.
From Verif Require Import Base INA.
Import ListNotations.
Local Open Scope nat_scope.

Inductive hist :=
| Leaf (w : nat)
| App (t tv : hist)
| Rem (t : hist) (R : nat -> bool).

(** the node that represents the whole history *)
Fixpoint root (t : hist) : nat :=
  match t with Leaf w => w | App t _ => root t | Rem t _ => root t end.

(** all nodes contracted into it *)
Fixpoint members (t : hist) : list nat :=
  match t with Leaf w => [w] | App t tv => members t ++ members tv | Rem t _ => members t end.

(** its incident nets, given the original incident nets of every node *)
Fixpoint nets (N : nat -> list nat) (t : hist) : list nat :=
  match t with
  | Leaf w => N w
  | App t tv => nets N t ++ nets N tv
  | Rem t R => filter (fun e => negb (R e)) (nets N t)
  end.

(** taking the history of [v] out of the history it was appended to; only
    possible if no net removal happened in between *)
Fixpoint take (v : nat) (t : hist) : option (hist * hist) :=
  match t with
  | App t1 tv => if root tv =? v then Some (t1, tv)
                 else match take v t1 with
                      | Some (t1', tv') => Some (App t1' tv, tv')
                      | None => None
                      end
  | _ => None
  end.

(** A forest: the histories of the active nodes.  The flag marks a history
    that was cut out of another one and whose nets are not restored yet. *)
Definition forest := list (hist * bool).

Inductive op :=
| ORem (u : nat) (R : nat -> bool)     (* removeIncidentNets *)
| OApp (u v : nat)                     (* the locked part of contract *)
| OSplice (u v : nat)                  (* the locked part of uncontract *)
| ORestore (u : nat)                   (* restoreIncidentNets *)
| OReset.                              (* reset *)

(** The legal uses: all contractions before all uncontractions, until
    [OReset]; a history is restored after it was cut out and before anything
    else happens to it; [OReset] when everything is uncontracted and restored.
    [true] is the contraction phase. *)
Inductive legal : bool * forest -> op -> bool * forest -> Prop :=
| L_rem t R F G : Permutation F ((t, false) :: G) ->
    legal (true, F) (ORem (root t) R) (true, (Rem t R, false) :: G)
| L_app t tv F G : Permutation F ((t, false) :: (tv, false) :: G) ->
    legal (true, F) (OApp (root t) (root tv)) (true, (App t tv, false) :: G)
| L_splice p t v t0 tv F G : Permutation F ((t, false) :: G) ->
    take v t = Some (t0, tv) ->
    legal (p, F) (OSplice (root t) v) (false, (t0, false) :: (tv, true) :: G)
| L_restore p t R b F G : Permutation F ((Rem t R, b) :: G) ->
    legal (p, F) (ORestore (root t)) (false, (t, false) :: G)
| L_reset p F : (forall t b, In (t, b) F -> exists w, t = Leaf w /\ b = false) ->
    legal (p, F) OReset (true, F).

Definition exec (fuel : nat) (s : ina) (o : op) : ina * list event :=
  match o with
  | ORem u R => (removeIncidentNets fuel s u R, [])
  | OApp u v => (append_step s u v, [])
  | OSplice u v => (splice_step fuel s u v, [])
  | ORestore u => restoreIncidentNets fuel s u
  | OReset => (ina_reset s, [])
  end.

(** runs: the code state and the history side by side *)
Inductive ina_run (fuel : nat) (N : nat -> list nat) (n : nat) :
    ina -> bool * forest -> Prop :=
| run_init : ina_run fuel N n (ina_init N) (true, map (fun u => (Leaf u, false)) (seq 0 n))
| run_step s pF o pF' : ina_run fuel N n s pF -> legal pF o pF' ->
    ina_run fuel N n (fst (exec fuel s o)) pF'.

(** the nets reported through case_two_func and case_one_func *)
Definition twos (evs : list event) : list nat :=
  flat_map (fun ev => match ev with Two e => [e] | One _ => [] end) evs.
Definition ones (evs : list event) : list nat :=
  flat_map (fun ev => match ev with One e => [e] | Two _ => [] end) evs.
