(** Api.v - C40 (context parameters) and C41 (preset compatibility).
    lib/mtkahypar.cpp:71-133, :160-256, :518-581; include/lib_helper_functions.h:108-136, :149-170, :202-230, :331-460, :483-560;
    mt-kahypar/partition/conversion.cpp:33-93; partitioner_facade.cpp:44-160; utils/cast.h:79-86. *)
From Coq Require Import ZArith Reals Lra Lia List Bool.
From Flocq Require Import Core.
From Verif Require Import Weights.
Import ListNotations.
Local Open Scope Z_scope.

(** ** C40 *)
(** Strings are byte lists (no 0 byte, a C string). *)
Definition str := list Z.
Fixpoint str_eqb (a b : str) : bool := match a, b with [], [] => true | x :: a, y :: b => (x =? y) && str_eqb a b | _, _ => false end.
Inductive objective := O_km1 | O_cut | O_soed | O_steiner_tree | O_undefined.
Inductive preset := P_deterministic | P_deterministic_quality | P_large_k | P_default | P_quality | P_highest_quality | P_undefined.
(** The fields of Context::partition read and written here (context.h: PartitioningParameters). *)
Record context := mkCtx { c_preset : preset; c_k : Z; c_epsilon : R; c_vcycles : Z; c_objective : objective; c_enable_logging : bool; c_verbose_logging : bool }.

(** std::stod = strtod (C locale): leading white space, sign, digits with optional fraction, optional exponent; the longest
    prefix counts, the rest of the string is ignored.  Hexadecimal numbers, "inf" and "nan" are not modelled ([Special]). *)
Inductive stod_res := Invalid | OutOfRange | Special | Number (x : R).
Definition ws (c : Z) : bool := (c =? 32) || ((9 <=? c) && (c <=? 13)).
Definition digit (c : Z) : bool := (48 <=? c) && (c <=? 57).
Fixpoint skip (l : str) : str := match l with c :: r => if ws c then skip r else l | [] => [] end.
Fixpoint digs (acc : Z) (n : nat) (l : str) : Z * nat * str :=
  match l with c :: r => if digit c then digs (10 * acc + (c - 48)) (S n) r else (acc, n, l) | [] => (acc, n, []) end.
Definition lower (c : Z) : Z := if (65 <=? c) && (c <=? 90) then c + 32 else c.
Definition sign_of (l : str) : Z * str := match l with 45 :: r => (-1, r) | 43 :: r => (1, r) | _ => (1, l) end.
Definition exponent (l : str) : Z :=
  match l with
  | c :: r => if lower c =? 101 then let '(s, r) := sign_of r in let '(e, n, _) := digs 0 0 r in match n with O => 0 | _ => s * e end else 0
  | [] => 0
  end.
Definition is_special (l : str) : bool :=
  match map lower l with 105 :: 110 :: 102 :: _ => true | 110 :: 97 :: 110 :: _ => true | 48 :: 120 :: _ => true | _ => false end.
(** mantissa [m], decimal exponent [e]: the value m * 10^e, rounded; ERANGE (overflow or a non-zero result below the normal
    range) is reported as an exception *)
Definition decimal (m e : Z) : R := (IZR m * powerRZ 10 e)%R.
Definition of_decimal (m e : Z) : stod_res :=
  let x := rnd (decimal m e) in
  if Rle_bool (bpow radix2 1024) (Rabs x) then OutOfRange
  else if Z.eqb m 0 then Number 0
  else if Rlt_bool (Rabs x) (bpow radix2 (-1022)) then OutOfRange else Number x.
Definition stod (value : str) : stod_res :=
  let '(s, l) := sign_of (skip value) in
  if is_special l then Special
  else let '(m, n, l1) := digs 0 0 l in
       let '(m, n, f, l2) := match l1 with 46 :: r => let '(m', n', r') := digs m n r in (m', n', (n' - n)%nat, r') | _ => (m, n, 0%nat, l1) end in
       match n with O => Invalid | _ => of_decimal (s * m) (exponent l2 - Z.of_nat f) end.

(** string_to_bool, mtkahypar.cpp:122-133; strings as character codes *)
Definition s_t : str := [116]. Definition s_y : str := [121]. Definition s_1 : str := [49].
Definition s_true : str := [116;114;117;101]. Definition s_yes : str := [121;101;115].
Definition s_f : str := [102]. Definition s_n : str := [110]. Definition s_0 : str := [48].
Definition s_false : str := [102;97;108;115;101]. Definition s_no : str := [110;111].
Definition s_km1 : str := [107;109;49]. Definition s_cut : str := [99;117;116]. Definition s_soed : str := [115;111;101;100].
Definition string_to_bool (v : str) : option bool :=
  let v := map lower v in
  if str_eqb v s_t || str_eqb v s_y || str_eqb v s_1 || str_eqb v s_true || str_eqb v s_yes then Some true
  else if str_eqb v s_f || str_eqb v s_n || str_eqb v s_0 || str_eqb v s_false || str_eqb v s_no then Some false
  else None.

Inductive parameter := NUM_BLOCKS | EPSILON | NUM_VCYCLES | OBJECTIVE | VERBOSE | OTHER_PARAMETER (* not an enumerator *).
Inductive status := SUCCESS | INVALID_PARAMETER.
(** Conversion of a double to int32 / size_t: truncation; undefined if out of range ([None]). *)
Definition to_int (x : R) : option Z := let z := Ztrunc x in if (- 2 ^ 31 <=? z) && (z <? 2 ^ 31) then Some z else None.
Definition to_size_t (x : R) : option Z := let z := Ztrunc x in if (0 <=? z) && (z <? 2 ^ 64) then Some z else None.
(** mt_kahypar_set_context_parameter, mtkahypar.cpp:160-213.  None = undefined or unmodelled (conversion out of range, inf/nan/hex) *)
Definition parse_number (v : str) (store : R -> option context) (c : context) : option (status * context) :=
  match stod v with
  | Invalid | OutOfRange => Some (INVALID_PARAMETER, c)
  | Special => None
  | Number x => match store x with Some c' => Some (SUCCESS, c') | None => None end
  end.
Definition set_k (c : context) (k : Z) := mkCtx (c_preset c) k (c_epsilon c) (c_vcycles c) (c_objective c) (c_enable_logging c) (c_verbose_logging c).
Definition set_eps (c : context) (e : R) := mkCtx (c_preset c) (c_k c) e (c_vcycles c) (c_objective c) (c_enable_logging c) (c_verbose_logging c).
Definition set_vc (c : context) (n : Z) := mkCtx (c_preset c) (c_k c) (c_epsilon c) n (c_objective c) (c_enable_logging c) (c_verbose_logging c).
Definition set_obj (c : context) (o : objective) := mkCtx (c_preset c) (c_k c) (c_epsilon c) (c_vcycles c) o (c_enable_logging c) (c_verbose_logging c).
Definition set_log (c : context) (b : bool) := mkCtx (c_preset c) (c_k c) (c_epsilon c) (c_vcycles c) (c_objective c) b b.
Definition set_context_parameter (c : context) (t : parameter) (v : str) : option (status * context) :=
  match t with
  | NUM_BLOCKS => parse_number v (fun x => match to_int x with Some k => Some (set_k c k) | None => None end) c
  | EPSILON => parse_number v (fun x => Some (set_eps c x)) c
  | NUM_VCYCLES => parse_number v (fun x => match to_size_t x with Some n => Some (set_vc c n) | None => None end) c
  | OBJECTIVE => if str_eqb v s_km1 then Some (SUCCESS, set_obj c O_km1)
                 else if str_eqb v s_cut then Some (SUCCESS, set_obj c O_cut)
                 else if str_eqb v s_soed then Some (SUCCESS, set_obj c O_soed)
                 else Some (INVALID_PARAMETER, c)
  | VERBOSE => match string_to_bool v with Some b => Some (SUCCESS, set_log c b) | None => Some (INVALID_PARAMETER, c) end
  | OTHER_PARAMETER => Some (INVALID_PARAMETER, c)
  end.
(** mt_kahypar_get_num_blocks / get_epsilon / get_objective, :236-256 (CUT = 0, KM1 = 1, SOED = 2 in mtkahypartypes.h) *)
Inductive c_obj := CUT | KM1 | SOED.
Definition get_objective (c : context) : c_obj := match c_objective c with O_cut => CUT | O_km1 => KM1 | O_soed => SOED | _ => CUT end.
(** check_if_all_relevant_parameters_are_set, lib_helper_functions.h:149-170; [dbl_max] = std::numeric_limits<double>::max() *)
Definition all_parameters_set (dbl_max : R) (c : context) : bool :=
  negb (match c_preset c with P_undefined => true | _ => false end) && negb (c_k c =? 2 ^ 31 - 1) && negb (Req_bool (c_epsilon c) dbl_max) &&
  negb (match c_objective c with O_undefined => true | _ => false end).

(** *** Proofs *)
Lemma str_eqb_eq a : forall b, str_eqb a b = true <-> a = b.
Proof.
  induction a as [|x a IH]; intros [|y b]; simpl; split; intros H; try reflexivity; try discriminate.
  - apply andb_true_iff in H. destruct H as [H1 H2]. apply Z.eqb_eq in H1. apply IH in H2. subst. reflexivity.
  - injection H as -> ->. rewrite Z.eqb_refl. apply IH. reflexivity.
Qed.
(** A call that does not succeed leaves the context unchanged, for every parameter and string. *)
Theorem C40_unchanged_on_error c t v s c' : set_context_parameter c t v = Some (s, c') -> s <> SUCCESS -> s = INVALID_PARAMETER /\ c' = c.
Proof.
  intros H N. assert (S : s = INVALID_PARAMETER) by (destruct s; congruence). split; [exact S|]. subst s. clear N.
  assert (P : forall store, parse_number v store c = Some (INVALID_PARAMETER, c') -> c' = c).
  { intros store. unfold parse_number. destruct (stod v); intros E; try congruence. destruct (store x); congruence. }
  destruct t; simpl in H; try (apply P in H; exact H).
  - destruct (str_eqb v s_km1); [discriminate|]. destruct (str_eqb v s_cut); [discriminate|]. destruct (str_eqb v s_soed); [discriminate|]. congruence.
  - destruct (string_to_bool v); [discriminate|]. congruence.
  - congruence.
Qed.
(** The objective is accepted exactly for the three documented strings; the getter then returns it and nothing else changes. *)
Theorem C40_objective c v : exists s c', set_context_parameter c OBJECTIVE v = Some (s, c') /\
  (s = SUCCESS <-> v = s_km1 \/ v = s_cut \/ v = s_soed) /\
  (v = s_km1 -> get_objective c' = KM1) /\ (v = s_cut -> get_objective c' = CUT) /\ (v = s_soed -> get_objective c' = SOED) /\
  c_preset c' = c_preset c /\ c_k c' = c_k c /\ c_epsilon c' = c_epsilon c /\ c_vcycles c' = c_vcycles c /\ c_enable_logging c' = c_enable_logging c /\ c_verbose_logging c' = c_verbose_logging c.
Proof.
  simpl. destruct (str_eqb v s_km1) eqn:E1; [|destruct (str_eqb v s_cut) eqn:E2; [|destruct (str_eqb v s_soed) eqn:E3]].
  - apply str_eqb_eq in E1. subst v. do 2 eexists. split; [reflexivity|]. split; [tauto|]. repeat (split; [first [reflexivity|intros X; discriminate X]|]). reflexivity.
  - apply str_eqb_eq in E2. subst v. do 2 eexists. split; [reflexivity|]. split; [tauto|]. repeat (split; [first [reflexivity|intros X; discriminate X]|]). reflexivity.
  - apply str_eqb_eq in E3. subst v. do 2 eexists. split; [reflexivity|]. split; [tauto|]. repeat (split; [first [reflexivity|intros X; discriminate X]|]). reflexivity.
  - assert (N : ~ (v = s_km1 \/ v = s_cut \/ v = s_soed)).
    { intros [X|[X|X]]; apply str_eqb_eq in X; congruence. }
    do 2 eexists. split; [reflexivity|]. split; [split; [discriminate|tauto]|]. repeat (split; [first [reflexivity|tauto]|]). reflexivity.
Qed.
(** VERBOSE accepts exactly t/y/1/true/yes and f/n/0/false/no in any capitalisation. *)
Theorem C40_verbose c v : exists s c', set_context_parameter c VERBOSE v = Some (s, c') /\
  (In (map lower v) [s_t; s_y; s_1; s_true; s_yes] -> s = SUCCESS /\ c' = set_log c true) /\
  (In (map lower v) [s_f; s_n; s_0; s_false; s_no] -> s = SUCCESS /\ c' = set_log c false) /\
  (~ In (map lower v) [s_t; s_y; s_1; s_true; s_yes; s_f; s_n; s_0; s_false; s_no] -> s = INVALID_PARAMETER /\ c' = c).
Proof.
  simpl set_context_parameter. unfold string_to_bool. cbv zeta. generalize (map lower v) as w. intros w.
  assert (T : forall l, existsb (str_eqb w) l = true <-> In w l).
  { intros l. rewrite existsb_exists. split; [intros (x & Hx & E); apply str_eqb_eq in E; subst; exact Hx|intros H; exists w; split; [exact H|apply str_eqb_eq; reflexivity]]. }
  pose proof (T [s_t; s_y; s_1; s_true; s_yes]) as T1. pose proof (T [s_f; s_n; s_0; s_false; s_no]) as T2. cbn [existsb] in T1, T2. rewrite orb_false_r in T1, T2. rewrite !orb_assoc in T1, T2.
  destruct (str_eqb w s_t || str_eqb w s_y || str_eqb w s_1 || str_eqb w s_true || str_eqb w s_yes) eqn:E1.
  - do 2 eexists. split; [reflexivity|]. split; [auto|]. split.
    + intros H2. exfalso. clear E1. pose proof (proj1 T1 eq_refl) as E1. clear - E1 H2. simpl in E1, H2. destruct E1 as [<-|[<-|[<-|[<-|[<-|[]]]]]]; intuition discriminate.
    + intros H. exfalso. apply H. clear E1. pose proof (proj1 T1 eq_refl) as E1. clear - E1. simpl in *. tauto.
  - destruct (str_eqb w s_f || str_eqb w s_n || str_eqb w s_0 || str_eqb w s_false || str_eqb w s_no) eqn:E2.
    + do 2 eexists. split; [reflexivity|]. split; [intros H; apply T1 in H; discriminate|]. split; [auto|]. intros H. exfalso. apply H. clear E2. pose proof (proj1 T2 eq_refl) as E2. clear - E2. simpl in *. tauto.
    + do 2 eexists. split; [reflexivity|]. split; [intros H; apply T1 in H; discriminate|]. split; [intros H; apply T2 in H; discriminate|]. auto.
Qed.

(** *** Numbers *)
Definition digit_string (d : str) : Prop := d <> [] /\ Forall (fun c => 48 <= c <= 57) d.
Definition value (d : str) : Z := fold_left (fun a c => 10 * a + (c - 48)) d 0.
(** [t] does not continue a number: it does not start with a digit, a dot, an exponent or x. *)
Definition ends_number (t : str) : Prop := match t with [] => True | c :: _ => ~ In c [46; 69; 101; 88; 120] /\ ~ (48 <= c <= 57) end.
Lemma digit_true c : 48 <= c <= 57 <-> digit c = true.
Proof. unfold digit. rewrite andb_true_iff, !Z.leb_le. tauto. Qed.
Lemma digs_app d t : Forall (fun c => 48 <= c <= 57) d -> match t with [] => True | c :: _ => ~ (48 <= c <= 57) end ->
  forall a n, digs a n (d ++ t) = (fold_left (fun a c => 10 * a + (c - 48)) d a, (n + length d)%nat, t).
Proof.
  intros F T. induction F as [|c d Hc _ IH]; intros a n.
  - simpl. rewrite Nat.add_0_r. destruct t as [|c t]; [reflexivity|]. simpl. destruct (digit c) eqn:E; [apply digit_true in E; tauto|reflexivity].
  - cbn [app digs fold_left length]. rewrite (proj1 (digit_true c) Hc), IH. f_equal. f_equal. lia.
Qed.
Lemma rnd_int_dec m : (Z.abs m < 2 ^ 53)%Z -> rnd (decimal m 0) = IZR m.
Proof. intros H. unfold decimal. simpl powerRZ. rewrite Rmult_1_r. apply rnd_int. lia. Qed.
Lemma of_decimal_int m : (Z.abs m < 2 ^ 53)%Z -> of_decimal m 0 = Number (IZR m).
Proof.
  intros H. unfold of_decimal. rewrite rnd_int_dec by exact H.
  assert (A : (Rabs (IZR m) < bpow radix2 1024)%R).
  { rewrite <- abs_IZR. apply Rlt_le_trans with (IZR (2 ^ 53)); [apply IZR_lt; exact H|]. change (IZR (2 ^ 53)) with (bpow radix2 53). apply bpow_le. lia. }
  rewrite Rle_bool_false by exact A. destruct (Z.eqb_spec m 0) as [->|N]; [reflexivity|]. rewrite Rlt_bool_false; [reflexivity|].
  apply Rle_trans with (IZR 1); [change (IZR 1) with (bpow radix2 0); apply bpow_le; lia|]. rewrite <- abs_IZR. apply IZR_le. lia.
Qed.
Lemma stod_int w sg d t : Forall (fun c => c = 32 \/ 9 <= c <= 13) w -> In sg [[]; [43]; [45]] -> digit_string d -> ends_number t -> (value d < 2 ^ 53)%Z ->
  stod (w ++ sg ++ d ++ t) = Number (IZR (if str_eqb sg [45] then - value d else value d)).
Proof.
  intros Hw Hs [D1 D2] Ht Hv. unfold stod.
  assert (V0 : 0 <= value d).
  { clear - D2. unfold value. enough (G : forall a, 0 <= a -> 0 <= fold_left (fun a c => 10 * a + (c - 48)) d a) by (apply G; lia). induction D2 as [|c d Hc _ IH]; intros a Ha; [exact Ha|]. cbn [fold_left]. apply IH. lia. }
  assert (Sk : forall l, (match l with [] => True | c :: _ => ws c = false end) -> skip (w ++ l) = l).
  { clear - Hw. intros l Hl. induction Hw as [|c w Hc _ IH].
    - simpl. destruct l as [|c l]; [reflexivity|]. simpl. rewrite Hl. reflexivity.
    - simpl. replace (ws c) with true; [exact IH|]. symmetry. unfold ws. rewrite orb_true_iff, andb_true_iff, Z.eqb_eq, !Z.leb_le. lia. }
  assert (dn : d <> []) by exact D1. destruct d as [|c0 d0]; [congruence|]. clear dn. assert (C0 : 48 <= c0 <= 57) by (inversion D2; assumption).
  assert (Sg : sign_of (skip (w ++ sg ++ (c0 :: d0) ++ t)) = ((if str_eqb sg [45] then -1 else 1), (c0 :: d0) ++ t)).
  { rewrite Sk.
    - destruct Hs as [<-|[<-|[<-|[]]]]; [|reflexivity|reflexivity]. cbn [app str_eqb]. clear - C0.
      unfold sign_of. destruct c0 as [|c|c]; try lia. repeat (destruct c as [c|c|]; try reflexivity; try lia).
    - destruct Hs as [<-|[<-|[<-|[]]]]; cbn [app]; try reflexivity. unfold ws. apply orb_false_iff. rewrite Z.eqb_neq, andb_false_iff, !Z.leb_gt. lia. }
  rewrite Sg. assert (NS : is_special ((c0 :: d0) ++ t) = false).
  { unfold is_special. cbn [app map]. assert (L0 : lower c0 = c0). { unfold lower. destruct (Z.leb_spec 65 c0); [lia|]. reflexivity. } rewrite L0.
    destruct (Z.eq_dec c0 48) as [->|N].
    - destruct (d0 ++ t) as [|c1 r] eqn:E; [reflexivity|]. cbn [map]. assert (N1 : lower c1 <> 120).
      { destruct d0 as [|c2 d2]; cbn [app] in E.
        - subst t. unfold ends_number in Ht. destruct Ht as [Ht _]. intros E. apply Ht. unfold lower in E. destruct (Z.leb_spec 65 c1), (Z.leb_spec c1 90); cbn [andb] in E; simpl; lia.
        - injection E as -> _. inversion D2 as [|? ? _ D3]; subst. inversion D3; subst. unfold lower. destruct (Z.leb_spec 65 c1); [lia|]. cbn [andb]. lia. }
      clear - N1. destruct (lower c1) as [|p|p]; try reflexivity. repeat (destruct p as [p|p|]; try reflexivity; try congruence).
    - assert (105 <> c0 /\ 110 <> c0) as [X Y] by lia. clear - C0 N X Y. destruct c0 as [|p|p]; try lia. repeat (destruct p as [p|p|]; try reflexivity; try lia). }
  rewrite NS. assert (T1 : match t with [] => True | c :: _ => ~ (48 <= c <= 57) end) by (destruct t; [exact I|unfold ends_number in Ht; tauto]).
  rewrite (digs_app (c0 :: d0) t D2 T1 0 0). fold (value (c0 :: d0)). cbn [Nat.add].
  assert (Dot : (let '(m, n, f, l2) := match t with 46 :: r => let '(m', n', r') := digs (value (c0 :: d0)) (length (c0 :: d0)) r in (m', n', (n' - length (c0 :: d0))%nat, r') | _ => (value (c0 :: d0), length (c0 :: d0), 0%nat, t) end in (m, n, f, l2)) = (value (c0 :: d0), length (c0 :: d0), 0%nat, t)).
  { destruct t as [|c t]; [reflexivity|]. destruct Ht as [Ht _]. assert (c <> 46) by (intros ->; apply Ht; simpl; tauto). clear - H. destruct c as [|p|p]; try reflexivity. repeat (destruct p as [p|p|]; try reflexivity; try congruence). }
  destruct (match t with 46 :: r => let '(m', n', r') := digs (value (c0 :: d0)) (length (c0 :: d0)) r in (m', n', (n' - length (c0 :: d0))%nat, r') | _ => (value (c0 :: d0), length (c0 :: d0), 0%nat, t) end) as [[[m n] f] l2].
  injection Dot as -> -> -> ->. cbn [length]. assert (Ex : exponent t = 0).
  { destruct t as [|c t]; [reflexivity|]. destruct Ht as [Ht _]. unfold exponent. destruct (Z.eqb_spec (lower c) 101) as [E|E]; [|reflexivity]. exfalso. apply Ht. unfold lower in E. destruct (Z.leb_spec 65 c), (Z.leb_spec c 90); cbn [andb] in E; simpl; lia. }
  rewrite Ex. change (0 - Z.of_nat 0) with 0. rewrite of_decimal_int by (destruct (str_eqb sg [45]); lia). f_equal. f_equal. destruct (str_eqb sg [45]); lia.
Qed.
(** The block count and the number of V-cycles given as a decimal integer (white space and sign allowed) are stored exactly if they
    fit; nothing else changes. *)
Theorem C40_num_blocks c w sg d t : Forall (fun c => c = 32 \/ 9 <= c <= 13) w -> In sg [[]; [43]; [45]] -> digit_string d -> ends_number t -> (value d < 2 ^ 31)%Z ->
  set_context_parameter c NUM_BLOCKS (w ++ sg ++ d ++ t) = Some (SUCCESS, set_k c (if str_eqb sg [45] then - value d else value d)).
Proof.
  intros Hw Hs Hd Ht Hv. simpl. unfold parse_number. rewrite stod_int by (try assumption; lia). unfold to_int. rewrite Ztrunc_IZR.
  assert (V0 : 0 <= value d).
  { destruct Hd as [_ D2]. clear - D2. unfold value. enough (G : forall a, 0 <= a -> 0 <= fold_left (fun a c => 10 * a + (c - 48)) d a) by (apply G; lia). induction D2 as [|x d Hc _ IH]; intros a Ha; [exact Ha|]. cbn [fold_left]. apply IH. lia. }
  replace ((- 2 ^ 31 <=? (if str_eqb sg [45] then - value d else value d)) && ((if str_eqb sg [45] then - value d else value d) <? 2 ^ 31)) with true; [reflexivity|].
  symmetry. rewrite andb_true_iff, Z.leb_le, Z.ltb_lt. destruct (str_eqb sg [45]); lia.
Qed.
(** Strings without any digit (and not starting like inf, nan) are rejected for all numeric parameters. *)
Theorem C40_not_a_number c v : (forall x, In x v -> ~ (48 <= x <= 57)) -> (forall x, In x v -> lower x <> 105 /\ lower x <> 110) ->
  forall t, In t [NUM_BLOCKS; EPSILON; NUM_VCYCLES] -> set_context_parameter c t v = Some (INVALID_PARAMETER, c).
Proof.
  intros ND NS t Ht. assert (S : stod v = Invalid).
  { unfold stod. assert (Sk : forall x, In x (snd (sign_of (skip v))) -> In x v).
    { assert (A : forall x, In x (skip v) -> In x v). { clear. induction v as [|x0 v IH]; intros x Hx; [exact Hx|]. simpl in Hx. destruct (ws x0); [right; apply IH, Hx|exact Hx]. }
      intros x Hx. apply A. revert Hx. generalize (skip v) as l. clear. intros l. unfold sign_of. destruct l as [|x0 l]; [tauto|]. destruct x0 as [|p|p]; simpl; try tauto.
      repeat (destruct p as [p|p|]; simpl; try tauto). }
    destruct (sign_of (skip v)) as [s l]. cbn [snd] in Sk.
    assert (I : is_special l = false).
    { unfold is_special. destruct l as [|x0 l]; [reflexivity|]. cbn [map]. destruct (NS x0 (Sk x0 (or_introl eq_refl))) as [N1 N2]. pose proof (ND x0 (Sk x0 (or_introl eq_refl))) as N3.
      assert (N4 : lower x0 <> 48). { unfold lower. destruct (Z.leb_spec 65 x0), (Z.leb_spec x0 90); cbn [andb]; lia. }
      revert N1 N2 N4. generalize (lower x0) as q. intros q N1 N2 N4. destruct q as [|p|p]; try reflexivity. repeat (destruct p as [p|p|]; try reflexivity; try congruence). }
    rewrite I. assert (Dg : forall a n l', (forall x, In x l' -> In x v) -> digs a n l' = (a, n, l')).
    { intros a n [|x0 l'] H; [reflexivity|]. simpl. destruct (digit x0) eqn:E; [apply digit_true in E; exfalso; apply (ND x0); [apply H; simpl; auto|exact E]|reflexivity]. }
    rewrite (Dg 0 0%nat l Sk). destruct l as [|x0 l]; [reflexivity|].
    assert (G : forall r, (forall x, In x r -> In x v) -> (let '(m', n', r') := digs 0 0 r in (m', n', (n' - 0)%nat, r')) = (0, 0%nat, 0%nat, r)) by (intros r Hr; rewrite Dg by exact Hr; reflexivity).
    destruct x0 as [|p|p]; try reflexivity. repeat (destruct p as [p|p|]; try reflexivity). rewrite G by (intros x Hx; apply Sk; right; exact Hx). reflexivity. }
  destruct Ht as [<-|[<-|[<-|[]]]]; simpl; unfold parse_number; rewrite S; reflexivity.
Qed.
(** Finding: non-positive block counts and trailing garbage are accepted, contrary to the expected "positive integer", and the
    check at partitioning time does not reject them either: "-3" and "0", "4x". *)
Theorem C40_refuted_negative_blocks c dbl_max : c_preset c = P_default -> c_objective c = O_km1 -> c_epsilon c <> dbl_max ->
  (exists c', set_context_parameter c NUM_BLOCKS [45; 51] = Some (SUCCESS, c') /\ c_k c' = -3 /\ all_parameters_set dbl_max c' = true) /\
  (exists c', set_context_parameter c NUM_BLOCKS [48] = Some (SUCCESS, c') /\ c_k c' = 0 /\ all_parameters_set dbl_max c' = true) /\
  (exists c', set_context_parameter c NUM_BLOCKS [52; 120] = Some (SUCCESS, c') /\ c_k c' = 4).
Proof.
  intros Hp Ho He.
  assert (A : forall k, (k =? 2 ^ 31 - 1) = false -> all_parameters_set dbl_max (set_k c k) = true).
  { intros k Hk. unfold all_parameters_set. simpl. rewrite Hp, Ho, Req_bool_false by exact He. replace (k =? 2147483647) with false by (symmetry; exact Hk). reflexivity. }
  assert (D : forall x, 48 <= x <= 57 -> digit_string [x]) by (intros x Hx; split; [discriminate|repeat constructor; lia]).
  split; [|split].
  - pose proof (C40_num_blocks c [] [45] [51] [] ltac:(constructor) ltac:(simpl; auto) (D 51 ltac:(lia)) I ltac:(reflexivity)) as E. eexists. split; [exact E|]. split; [reflexivity|]. apply A. reflexivity.
  - pose proof (C40_num_blocks c [] [] [48] [] ltac:(constructor) ltac:(simpl; auto) (D 48 ltac:(lia)) I ltac:(reflexivity)) as E. eexists. split; [exact E|]. split; [reflexivity|]. apply A. reflexivity.
  - (* "4x": x continues only a leading 0 *)
    simpl. unfold parse_number. assert (E : stod [52; 120] = Number (IZR 4)). { unfold stod. simpl. apply (of_decimal_int 4). reflexivity. }
    rewrite E. unfold to_int. rewrite Ztrunc_IZR. simpl. eexists. split; reflexivity.
Qed.
(** Finding: a fractional block count such as "2.5" is accepted and truncated. *)
Theorem C40_refuted_fraction c : exists c', set_context_parameter c NUM_BLOCKS [50; 46; 53] = Some (SUCCESS, c') /\ c_k c' = 2.
Proof.
  simpl. unfold parse_number. assert (E : stod [50; 46; 53] = Number (5 / 2)).
  { change (stod [50; 46; 53]) with (of_decimal 25 (-1)). unfold of_decimal.
    assert (X : decimal 25 (-1) = (5 / 2)%R). { unfold decimal. simpl. lra. }
    assert (D : rnd (5 / 2) = (5 / 2)%R).
    { apply rnd_double. replace (5 / 2)%R with (IZR 5 * bpow radix2 (-1))%R by (simpl; lra). apply generic_format_FLT. apply (FLT_spec radix2 (-1074) 53 _ (Float radix2 5 (-1))); [reflexivity|simpl; lia|simpl; lia]. }
    rewrite X, D. rewrite Rabs_pos_eq by lra. rewrite Rle_bool_false.
    - change (25 =? 0) with false. rewrite Rlt_bool_false; [reflexivity|]. apply Rle_trans with (bpow radix2 0); [apply bpow_le; lia|simpl; lra].
    - apply Rlt_le_trans with (bpow radix2 2); [simpl; lra|apply bpow_le; lia]. }
  rewrite E. unfold to_int. replace (Ztrunc (5 / 2)) with 2; [simpl; eexists; split; reflexivity|]. symmetry. rewrite Ztrunc_floor by lra. apply Zfloor_imp. simpl. lra.
Qed.
