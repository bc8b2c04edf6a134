(** IORead3.v - Metis graph files, and examples and findings for both readers. *)
From Verif Require Import Base Sorting Construct IO IOSafe IORead IORead2.

(** *** Metis lines *)
Definition metis_entry (we : bool) (x : nat * Z) : list Z := (Z.of_nat (fst x) + 1) :: (if we then [snd x] else []).
Definition metis_line (we wv : bool) (v : Z * list (nat * Z)) : list Z := (if wv then [fst v] else []) ++ flat_map (metis_entry we) (snd v).

Section ReadMetis.
Variable file : list Z.
Notation len := (len file).
Notation At := (At file).

Definition forward (we : bool) (u : nat) (l : list (nat * Z)) : list (nat * Z) :=
  map (fun x => (fst x, if we then snd x else 1)) (filter (fun x => (u <? fst x)%nat) l).
Lemma metis_targets_toks n we u lim t : is_le (hd 0 t) = true -> (lim <= len)%nat -> n <= MAXID -> forall l fuel s p, Toks0 (flat_map (metis_entry we) l) s ->
  Forall (fun x => Z.of_nat (fst x) < n /\ snd x <= MAXW) l -> At p (s ++ t) -> (p + length s <= lim)%nat -> (length s < fuel)%nat ->
  metis_targets file true fuel n we u lim p = Ok (forward we u l, (p + length s)%nat).
Proof.
  intros Le Hl Hn. induction l as [|[x w] l IH]; intros fuel s p T F A Hp Hf; (destruct fuel as [|f]; [lia|]); cbn [metis_targets].
  - destruct T as [[_ ->]|T]; [|inversion T]. rewrite (At_rd _ _ _ A). cbn [app bind length]. rewrite Le, Nat.add_0_r. reflexivity.
  - destruct T as [[X _]|T]; [discriminate|]. cbn [flat_map metis_entry app fst snd] in T. destruct (Toks_hd _ _ T) as (c & s2 & Es & Hc). inversion F as [|? ? [F1 F2] F']; subst. cbn [fst snd] in *.
    rewrite (At_rd _ _ _ A). cbn [app hd bind]. rewrite is_le_digit by exact Hc. change ((c :: s2) ++ t) with ([] ++ (c :: s2) ++ t) in A.
    destruct (read_tok file MAXID lim [] _ _ (c :: s2) t p ltac:(unfold MAXID; lia) ltac:(constructor) T Le A ltac:(cbn [length] in *; lia) Hl) as (s' & q & R & _ & Aq & T' & L' & D').
    rewrite R. rewrite (proj2 (Z.leb_le (Z.of_nat x + 1) MAXID)) by lia. cbn [bind]. destruct (Z.eqb_spec (Z.of_nat x + 1) 0); [lia|]. destruct (Z.ltb_spec n (Z.of_nat x + 1)); [lia|].
    assert (W : exists s3 q3, (if we then read_number file true MAXW lim q else Ok (1, q)) = Ok ((if we then w else 1), q3) /\ At q3 (s3 ++ t) /\
        Toks0 (flat_map (metis_entry we) l) s3 /\ (q3 + length s3 = q + length s')%nat /\ (length s3 <= length s')%nat).
    { destruct we; cbn [app] in T'.
      - destruct T' as [[X _]|T']; [discriminate|]. change (s' ++ t) with ([] ++ s' ++ t) in Aq.
        destruct (read_tok file MAXW lim [] _ _ s' t q ltac:(unfold MAXW; lia) ltac:(constructor) T' Le Aq ltac:(cbn [length] in *; lia) Hl) as (s3 & q3 & R3 & _ & Aq3 & T3 & L3 & D3).
        exists s3, q3. rewrite R3. rewrite (proj2 (Z.leb_le w MAXW) F2). split; [reflexivity|]. split; [exact Aq3|]. split; [exact T3|]. cbn [length] in L3. lia.
      - exists s', q. split; [reflexivity|]. split; [exact Aq|]. split; [exact T'|]. lia. }
    destruct W as (s3 & q3 & -> & A3 & T3 & L3 & D3). cbn [bind].
    rewrite (IH f s3 q3 T3 F' A3 ltac:(cbn [length] in *; lia) ltac:(cbn [length] in *; lia)). cbn [bind].
    replace (q3 + length s3)%nat with (p + length (c :: s2))%nat by (cbn [length] in *; lia).
    unfold forward. cbn [filter fst snd]. destruct (Nat.ltb_spec u x), (Z.ltb_spec (Z.of_nat u) (Z.of_nat x + 1 - 1)); try lia; cbn [map fst snd]; repeat f_equal; lia.
Qed.
Lemma metis_row_At we wv n lim u p e w r q : Line (metis_line we wv e) w r -> Forall (fun x => Z.of_nat (fst x) < n /\ snd x <= MAXW) (snd e) -> n <= MAXID -> fst e <= MAXW ->
  At p w -> At q r -> (q <= lim)%nat -> (lim <= len)%nat ->
  metis_row file true we wv n lim u p = Ok (((if wv then fst e else 1), map (fun x => (u, fst x, snd x)) (forward we u (snd e))), q).
Proof.
  intros (s & t & -> & X & E) F Hn Hw A Aq Hq Hl. destruct e as [ww l]. cbn [fst snd] in *. pose proof (Eol_hd _ _ E) as Le.
  assert (PL : (p + length s <= q)%nat).
  { pose proof (At_len _ _ _ A) as LA. pose proof (At_len _ _ _ Aq) as LQ. rewrite app_length in LA. destruct (Eol_suffix _ _ E) as (x & Ex). rewrite Ex, app_length in LA. lia. }
  assert (FIN : forall p', p' = (p + length s)%nat -> forall v : Z * list (nat * nat * Z), (p0 <- do_line_ending file true p' ;; Ok (v, p0)) = Ok (v, q)).
  { intros p' -> v. destruct (do_line_ending_At file t r _ (At_adv _ _ _ _ A) E) as (q' & -> & Aq' & _). cbn [bind]. rewrite (At_eq file _ _ _ Aq' Aq). reflexivity. }
  pose proof (At_len _ _ _ A) as LA. rewrite app_length in LA.
  unfold metis_row. unfold metis_line in X. cbn [fst snd] in X. destruct wv.
  - destruct X as [(b & s' & Bb & -> & T)|(X & _)]; [|discriminate]. cbn [app] in T. rewrite <- app_assoc in A. rewrite app_length in *.
    destruct (read_tok file MAXW lim b ww _ s' t p ltac:(unfold MAXW; lia) Bb T Le A ltac:(lia) Hl) as (s2 & q2 & R & _ & Aq2 & T' & L' & D').
    rewrite R. rewrite (proj2 (Z.leb_le ww MAXW)) by exact Hw. cbn [bind].
    rewrite (metis_targets_toks n we u lim t Le Hl Hn l (S len) s2 q2 T' F Aq2 ltac:(lia) ltac:(lia)). cbn [bind]. apply FIN. lia.
  - cbn [app] in X. cbn [bind]. destruct X as [(b & s' & Bb & -> & T)|(X & -> & _)].
    + destruct l as [|[x w] l]; [inversion T|]. cbn [flat_map metis_entry app fst snd] in T. inversion F as [|? ? [F1 F2] F']; subst. cbn [fst snd] in *. cbn [metis_targets].
      assert (NL : is_le (hd 0 ((b ++ s') ++ t)) = false).
      { destruct (Toks_hd _ _ T) as (c & s2 & -> & Hc). destruct b as [|c' b]; cbn; [apply is_le_digit, Hc|]. inversion Bb; subst. reflexivity. }
      rewrite (At_rd _ _ _ A). cbn [bind]. rewrite NL. rewrite <- app_assoc in A. rewrite app_length in *.
      destruct (read_tok file MAXID lim b _ _ s' t p ltac:(unfold MAXID; lia) Bb T Le A ltac:(lia) Hl) as (s2 & q2 & R & _ & Aq2 & T' & L' & D').
      rewrite R. rewrite (proj2 (Z.leb_le (Z.of_nat x + 1) MAXID)) by lia. cbn [bind]. destruct (Z.eqb_spec (Z.of_nat x + 1) 0); [lia|]. destruct (Z.ltb_spec n (Z.of_nat x + 1)); [lia|].
      assert (W : exists s3 q3, (if we then read_number file true MAXW lim q2 else Ok (1, q2)) = Ok ((if we then w else 1), q3) /\ At q3 (s3 ++ t) /\
        Toks0 (flat_map (metis_entry we) l) s3 /\ (q3 + length s3 = q2 + length s2)%nat /\ (length s3 <= length s2)%nat).
      { destruct we; cbn [app] in T'.
        - destruct T' as [[X _]|T']; [discriminate|]. change (s2 ++ t) with ([] ++ s2 ++ t) in Aq2.
          destruct (read_tok file MAXW lim [] _ _ s2 t q2 ltac:(unfold MAXW; lia) ltac:(constructor) T' Le Aq2 ltac:(cbn [length] in *; lia) Hl) as (s3 & q3 & R3 & _ & Aq3 & T3 & L3 & D3).
          exists s3, q3. rewrite R3. rewrite (proj2 (Z.leb_le w MAXW) F2). split; [reflexivity|]. split; [exact Aq3|]. split; [exact T3|]. cbn [length] in L3. lia.
        - exists s2, q2. split; [reflexivity|]. split; [exact Aq2|]. split; [exact T'|]. lia. }
      destruct W as (s3 & q3 & -> & A3 & T3 & L3 & D3). cbn [bind].
      rewrite (metis_targets_toks n we u lim t Le Hl Hn l len s3 q3 T3 F' A3 ltac:(lia) ltac:(lia)). cbn [bind].
      rewrite FIN by lia. unfold forward. cbn [filter fst snd]. destruct (Nat.ltb_spec u x), (Z.ltb_spec (Z.of_nat u) (Z.of_nat x + 1 - 1)); try lia; cbn [map fst snd]; repeat f_equal; lia.
    + assert (l = []) as -> by (destruct l as [|[x w] l]; [reflexivity|discriminate]). cbn [app] in A.
      pose proof (metis_targets_toks n we u lim t Le Hl Hn [] (S len) [] p ltac:(left; auto) F A ltac:(cbn [length] in *; lia) ltac:(cbn; lia)) as R. rewrite R. cbn [bind].
      apply FIN. reflexivity.
Qed.
End ReadMetis.

(** A graph file: vertices with weight and adjacency list (neighbour, edge weight). *)
Record gdesc := mkGD { gd_rows : list (Z * list (nat * Z)); gd_we : bool; gd_wv : bool }.
(** The edges stored at their smaller endpoint, in file order. *)
Definition forward_edges (D : gdesc) : list (nat * nat * Z) :=
  concat (map (fun u => map (fun x => (u, fst x, if gd_we D then snd x else 1)) (filter (fun x => (u <? fst x)%nat) (snd (nth u (gd_rows D) (0, [])))))
              (seq 0 (length (gd_rows D)))).
Definition gdesc_ok (D : gdesc) : Prop :=
  Z.of_nat (length (gd_rows D)) <= MAXID /\ Z.of_nat (length (forward_edges D)) <= MAXID /\
  forall e, In e (gd_rows D) -> fst e <= MAXW /\ Forall (fun x => (fst x < length (gd_rows D))%nat /\ snd x <= MAXW) (snd e).
(** [file] is a Metis file with these adjacency lists whose header states the number of forward edges. *)
Definition MetisFile (D : gdesc) (file : list Z) : Prop :=
  exists f w0 w1 w2,
    Comments file w0 /\ Format (gd_we D) (gd_wv D) f /\
    Line (Z.of_nat (length (gd_rows D)) :: Z.of_nat (length (forward_edges D)) :: f) w0 w1 /\
    Rows (map (metis_line (gd_we D) (gd_wv D)) (gd_rows D)) w1 w2 /\ Comments w2 [].
Definition gdesc_result (D : gdesc) : metis :=
  mkMetis (Z.of_nat (length (forward_edges D))) (Z.of_nat (length (gd_rows D))) (map fst (forward_edges D))
    (if gd_we D then Some (map snd (forward_edges D)) else None) (if gd_wv D then Some (map fst (gd_rows D)) else None).

Lemma fold_rows_weights (g : nat -> Z) {A} (h : nat -> A) (rs : list range) : forall f,
  fold_left (fun f rl => fold_left (fun f iw => upd f (fst iw) (snd iw)) (combine (seq (r_index (fst rl)) (length (snd rl))) (map fst (snd rl))) f)
     (combine rs (map (fun r => map (fun k => (g k, h k)) (seq (r_index r) (r_lines r))) rs)) f =
  write_list f (map (fun k => (k, g k)) (flat_map (fun r => seq (r_index r) (r_lines r)) rs)).
Proof.
  induction rs as [|r rs IH]; intros f; [reflexivity|]. cbn [map combine fold_left fst snd flat_map]. rewrite IH. unfold write_list. rewrite map_app, fold_left_app.
  f_equal. rewrite map_map. cbn [fst]. rewrite map_length, seq_length.
  assert (E : forall l, combine l (map g l) = map (fun k => (k, g k)) l) by (induction l as [|a l IHl]; [reflexivity|]; cbn; rewrite IHl; reflexivity).
  change (fun x => fst (g x, h x)) with (fun x => g x). change (map (fun x : nat => g x)) with (map g). rewrite E. reflexivity.
Qed.

(** C49: reading a Metis file. *)
Theorem C49_metis_read D file nr : gdesc_ok D -> MetisFile D file -> (1 <= nr)%nat -> read_metis file true nr = Ok (gdesc_result D).
Proof.
  intros (O1 & O2 & O3) (f & w0 & w1 & w2 & G1 & G2 & G3 & G4 & G5) Hnr.
  unfold read_metis. assert (NE : (len file =? 0)%nat = false).
  { apply Nat.eqb_neq. intros E. unfold len in E. destruct file as [|c fl]; [|discriminate]. destruct (Comments_suffix _ _ G1) as (x & Ex).
    destruct (Line_hd _ _ _ G3) as (_ & Nw & _). symmetry in Ex. apply app_eq_nil in Ex. tauto. }
  rewrite NE. destruct (read_header_At file _ _ _ _ _ _ _ G1 G3 G2 O1 O2) as (p & -> & A1 & Hp & _ & _). cbn [bind].
  destruct (Rows_fun file _ _ _ G4 p A1) as (W & P & E1 & E2 & E3 & E4 & E5). rewrite map_length in E2, E4, E5. set (n := length (gd_rows D)) in *.
  set (we := gd_we D) in *. set (wv := gd_wv D) in *. set (row := fun k => nth k (gd_rows D) (0, [])).
  set (ga := fun k => if wv then fst (row k) else 1). set (gb := fun k => map (fun x => (k, fst x, snd x)) (forward we k (snd (row k)))).
  destruct (read_lines_At file n (fun k => nth k (map (metis_line we wv) (gd_rows D)) []) W P E4 E5 (metis_row file true we wv (Z.of_nat n)) (fun k => (ga k, gb k))) with (nr := nr) (w' := (@nil Z)) as (rs & p1 & R1 & R2 & R3 & R4).
  - intros k lim p' w q Hk L Ap Aq Hq Hl. unfold ga, gb.
    assert (EL : nth k (map (metis_line we wv) (gd_rows D)) [] = metis_line we wv (row k)).
    { rewrite nth_indep with (d' := metis_line we wv (0, [])) by (rewrite map_length; exact Hk). apply map_nth. }
    rewrite EL in L. destruct (O3 (row k) ltac:(apply nth_In; exact Hk)) as (Q1 & Q2).
    apply (metis_row_At file we wv (Z.of_nat n) lim k p' _ w (W (S k)) q L); try assumption.
    eapply Forall_impl; [|exact Q2]. intros x [X1 X2]. split; [lia|exact X2].
  - exact Hnr.
  - rewrite E3. lia.
  - rewrite E2. exact G5.
  - cbn. lia.
  - rewrite E3 in R1. rewrite (Nat2Z.id n), R1. cbn [bind]. rewrite R3. cbn [bind]. cbv zeta.
    assert (ES : concat (map (fun l : list (Z * list (nat * nat * Z)) => concat (map snd l)) (map (fun r => map (fun k => (ga k, gb k)) (seq (r_index r) (r_lines r))) rs)) = forward_edges D).
    { transitivity (concat (map gb (flat_map (fun r => seq (r_index r) (r_lines r)) rs))).
      - clear. induction rs as [|r rs IH]; [reflexivity|]. cbn [map concat flat_map]. rewrite IH. rewrite map_app, concat_app. f_equal. rewrite map_map. reflexivity.
      - rewrite R4. unfold forward_edges, gb, forward. fold we n. f_equal. apply map_ext. intros u. rewrite map_map. reflexivity. }
    rewrite ES, Z.eqb_refl. assert (N0 : hd 0 (@nil Z) <> 37) by (cbn; lia).
    destruct (comments_At file [] [] p1 (com_nil []) R2 N0) as (p3 & -> & A3 & _). cbn [bind].
    pose proof (At_len _ _ _ A3) as L3. cbn [length] in L3. replace p3 with (len file) by lia. rewrite Nat.eqb_refl. unfold gdesc_result. fold n we wv.
    f_equal. f_equal. destruct wv eqn:Ewv; [|reflexivity]. f_equal. rewrite (fold_rows_weights ga gb rs), R4.
    assert (X : map (write_list (fun _ => 0) (map (fun k => (k, ga k)) (seq 0 n))) (seq 0 n) = map ga (seq 0 n)).
    { apply map_ext_in. intros k Hk. apply write_list_spec; [apply in_map_iff; exists k; auto|]. intros v' Hv'. apply in_map_iff in Hv'. destruct Hv' as (k' & E & _). injection E as -> <-. reflexivity. }
    rewrite X. unfold ga, row, n. clear. generalize (gd_rows D) as l. intros l.
    apply nth_ext with (d := 0) (d' := 0); [rewrite !map_length, seq_length; reflexivity|]. intros j Hj. rewrite map_length, seq_length in Hj.
    rewrite nth_indep with (d' := (fun k => fst (nth k l (0, []))) 0%nat) by (rewrite map_length, seq_length; exact Hj). rewrite (map_nth (fun k => fst (nth k l (0, [])))), seq_nth by exact Hj.
    cbn [Nat.add]. symmetry. change 0 with (fst (0, @nil (nat * Z))) at 1. apply map_nth.
Qed.

(** *** Examples and findings.  Text as in the file. *)
From Coq Require Import String Ascii.
Fixpoint bytes (s : string) : list Z := match s with EmptyString => [] | String c r => Z.of_nat (nat_of_ascii c) :: bytes r end.
Definition NL : string := String (ascii_of_nat 10) EmptyString.
Local Open Scope string_scope.

Definition ex_hgr_file : list Z := bytes ("% example" ++ NL ++ "3 4 11" ++ NL ++ "5 1  2 1" ++ NL ++ "%c" ++ NL ++ " 7 4 " ++ NL ++ "2 2 3 4" ++ NL ++ "%" ++ NL ++ "1" ++ NL ++ "2" ++ NL ++ "1" ++ NL ++ "9").
Definition ex_hgr : hdesc := mkD 4 [(5, [0;1;0]%nat); (7, [3]%nat); (2, [1;2;3]%nat)] true (Some [1;2;1;9]).
Lemma toks1 d vs s : digits d -> Toks vs s -> Toks (val d :: vs) (d ++ [32] ++ s).
Proof. intros D T. apply toks_more; [exact D|repeat constructor|discriminate|exact T]. Qed.
Ltac solve_digits := split; [discriminate|repeat constructor; vm_compute; discriminate].
Example ex_hgr_ok : hdesc_ok ex_hgr.
Proof.
  unfold hdesc_ok. cbn -[MAXID MAXW]. unfold MAXID, MAXW. split; [lia|]. split; [lia|]. split.
  - intros e [<-|[<-|[<-|[]]]]; cbn; (split; [discriminate|split; [intros p Hp; intuition (subst; lia)|lia]]).
  - intros ws E. injection E as <-. split; [reflexivity|]. repeat constructor; lia.
Qed.
Ltac solve_line b s' t := exists (b ++ s')%list, t; split; [reflexivity|split; [left; exists b, s'; split; [repeat constructor|split; [reflexivity|]]|]].
Example ex_hgr_format : HgrFile ex_hgr ex_hgr_file.
Proof.
  set (w0 := bytes ("3 4 11" ++ NL ++ "5 1  2 1" ++ NL ++ "%c" ++ NL ++ " 7 4 " ++ NL ++ "2 2 3 4" ++ NL ++ "%" ++ NL ++ "1" ++ NL ++ "2" ++ NL ++ "1" ++ NL ++ "9")).
  set (w1 := bytes ("5 1  2 1" ++ NL ++ "%c" ++ NL ++ " 7 4 " ++ NL ++ "2 2 3 4" ++ NL ++ "%" ++ NL ++ "1" ++ NL ++ "2" ++ NL ++ "1" ++ NL ++ "9")).
  set (w1a := bytes ("%c" ++ NL ++ " 7 4 " ++ NL ++ "2 2 3 4" ++ NL ++ "%" ++ NL ++ "1" ++ NL ++ "2" ++ NL ++ "1" ++ NL ++ "9")).
  set (w1b := bytes (" 7 4 " ++ NL ++ "2 2 3 4" ++ NL ++ "%" ++ NL ++ "1" ++ NL ++ "2" ++ NL ++ "1" ++ NL ++ "9")).
  set (w1c := bytes ("2 2 3 4" ++ NL ++ "%" ++ NL ++ "1" ++ NL ++ "2" ++ NL ++ "1" ++ NL ++ "9")).
  set (w2 := bytes ("%" ++ NL ++ "1" ++ NL ++ "2" ++ NL ++ "1" ++ NL ++ "9")).
  set (w3 := bytes ("1" ++ NL ++ "2" ++ NL ++ "1" ++ NL ++ "9")).
  exists [11], w0, w1, w2, w3, (@nil Z). split; [|split; [|split; [|split; [|split; [|split; [|split]]]]]].
  - apply com_cons with (w' := w0); [|constructor]. exists (bytes " example"), (10 :: w0). split; [reflexivity|]. split; [repeat constructor; vm_compute; discriminate|constructor].
  - right. reflexivity.
  - solve_line (@nil Z) (bytes "3 4 11") (10 :: w1); [|constructor].
    apply (toks1 (bytes "3")); [solve_digits|]. apply (toks1 (bytes "4")); [solve_digits|]. apply (toks_one (bytes "11") []); [solve_digits|constructor].
  - apply rows_cons with (w' := w1a); [|apply rows_cons with (w' := w1c); [|apply rows_cons with (w' := w2); [|constructor]]].
    + exists w1. split; [constructor|]. solve_line (@nil Z) (bytes "5 1  2 1") (10 :: w1a); [|constructor].
      apply (toks1 (bytes "5")); [solve_digits|]. apply (toks_more (bytes "1") (bytes "  ") [2; 1] (bytes "2 1")); [solve_digits|repeat constructor|discriminate|].
      apply (toks1 (bytes "2")); [solve_digits|]. apply (toks_one (bytes "1") []); [solve_digits|constructor].
    + exists w1b. split.
      * apply com_cons with (w' := w1b); [|constructor]. exists (bytes "c"), (10 :: w1b). split; [reflexivity|]. split; [repeat constructor; vm_compute; discriminate|constructor].
      * solve_line [32] (bytes "7 4 ") (10 :: w1c); [|constructor].
        apply (toks1 (bytes "7")); [solve_digits|]. apply (toks_one (bytes "4") [32]); [solve_digits|repeat constructor].
    + exists w1c. split; [constructor|]. solve_line (@nil Z) (bytes "2 2 3 4") (10 :: w2); [|constructor].
      apply (toks1 (bytes "2")); [solve_digits|]. apply (toks1 (bytes "2")); [solve_digits|]. apply (toks1 (bytes "3")); [solve_digits|]. apply (toks_one (bytes "4") []); [solve_digits|constructor].
  - apply com_cons with (w' := w3); [|constructor]. exists (@nil Z), (10 :: w3). split; [reflexivity|]. split; constructor.
  - vm_compute. discriminate.
  - apply lines_cons with (w' := bytes ("2" ++ NL ++ "1" ++ NL ++ "9")); [|apply lines_cons with (w' := bytes ("1" ++ NL ++ "9")); [|apply lines_cons with (w' := bytes "9"); [|apply lines_cons with (w' := (@nil Z)); [|constructor]]]].
    + solve_line (@nil Z) (bytes "1") (10 :: bytes ("2" ++ NL ++ "1" ++ NL ++ "9")); [apply (toks_one (bytes "1") []); [solve_digits|constructor]|constructor].
    + solve_line (@nil Z) (bytes "2") (10 :: bytes ("1" ++ NL ++ "9")); [apply (toks_one (bytes "2") []); [solve_digits|constructor]|constructor].
    + solve_line (@nil Z) (bytes "1") (10 :: bytes "9"); [apply (toks_one (bytes "1") []); [solve_digits|constructor]|constructor].
    + solve_line (@nil Z) (bytes "9") (@nil Z); [apply (toks_one (bytes "9") []); [solve_digits|constructor]|constructor].
  - constructor.
Qed.
Example ex_hgr_read : read_hgr ex_hgr_file true 8 true = Ok (mkHGR 2 4 1 [[0;1]; [1;2;3]]%nat (Some [5; 2]) (Some [1;2;1;9])).
Proof. vm_compute. reflexivity. Qed.
Example ex_metis_read : read_metis (bytes ("3 2 11" ++ NL ++ "4 2 7 3 8" ++ NL ++ "5 1 7" ++ NL ++ "%x" ++ NL ++ "6 1 8" ++ NL)) true 4 =
  Ok (mkMetis 2 3 [(0,1);(0,2)]%nat (Some [7;8]) (Some [4;5;6])).
Proof. vm_compute. reflexivity. Qed.

(** The hypotheses of C49 are met by that file. *)
Definition ex_metis : gdesc := mkGD [(4, [(1%nat,7);(2%nat,8)]); (5, [(0%nat,7)]); (6, [(0%nat,8)])] true true.
Example ex_metis_ok : gdesc_ok ex_metis.
Proof.
  unfold gdesc_ok. cbn -[MAXID MAXW]. unfold MAXID, MAXW. split; [lia|]. split; [lia|].
  intros e [<-|[<-|[<-|[]]]]; cbn; (split; [lia|repeat constructor; cbn; lia]).
Qed.
Example ex_metis_format : MetisFile ex_metis (bytes ("3 2 11" ++ NL ++ "4 2 7 3 8" ++ NL ++ "5 1 7" ++ NL ++ "%x" ++ NL ++ "6 1 8" ++ NL)).
Proof.
  set (w1 := bytes ("4 2 7 3 8" ++ NL ++ "5 1 7" ++ NL ++ "%x" ++ NL ++ "6 1 8" ++ NL)).
  set (w2 := bytes ("5 1 7" ++ NL ++ "%x" ++ NL ++ "6 1 8" ++ NL)).
  set (w3 := bytes ("%x" ++ NL ++ "6 1 8" ++ NL)). set (w4 := bytes ("6 1 8" ++ NL)).
  exists [11], (bytes ("3 2 11" ++ NL ++ "4 2 7 3 8" ++ NL ++ "5 1 7" ++ NL ++ "%x" ++ NL ++ "6 1 8" ++ NL)), w1, (@nil Z).
  split; [constructor|split; [right; reflexivity|split; [|split; [|constructor]]]].
  - solve_line (@nil Z) (bytes "3 2 11") (10 :: w1); [|constructor].
    apply (toks1 (bytes "3")); [solve_digits|]. apply (toks1 (bytes "2")); [solve_digits|]. apply (toks_one (bytes "11") []); [solve_digits|constructor].
  - apply rows_cons with (w' := w2); [|apply rows_cons with (w' := w3); [|apply rows_cons with (w' := (@nil Z)); [|constructor]]].
    + exists w1. split; [constructor|]. solve_line (@nil Z) (bytes "4 2 7 3 8") (10 :: w2); [|constructor].
      apply (toks1 (bytes "4")); [solve_digits|]. apply (toks1 (bytes "2")); [solve_digits|]. apply (toks1 (bytes "7")); [solve_digits|].
      apply (toks1 (bytes "3")); [solve_digits|]. apply (toks_one (bytes "8") []); [solve_digits|constructor].
    + exists w2. split; [constructor|]. solve_line (@nil Z) (bytes "5 1 7") (10 :: w3); [|constructor].
      apply (toks1 (bytes "5")); [solve_digits|]. apply (toks1 (bytes "1")); [solve_digits|]. apply (toks_one (bytes "7") []); [solve_digits|constructor].
    + exists w4. split.
      * apply com_cons with (w' := w4); [|constructor]. exists (bytes "x"), (10 :: w4). split; [reflexivity|]. split; [repeat constructor; vm_compute; discriminate|constructor].
      * solve_line (@nil Z) (bytes "6 1 8") [10]; [|constructor].
        apply (toks1 (bytes "6")); [solve_digits|]. apply (toks1 (bytes "1")); [solve_digits|]. apply (toks_one (bytes "8") []); [solve_digits|constructor].
Qed.

(** Finding: comments between vertex weights are rejected, although comments are allowed everywhere else. *)
Theorem C33_refuted_comment_between_weights :
  read_hgr (bytes ("1 2 10" ++ NL ++ "1 2" ++ NL ++ "1" ++ NL ++ "1" ++ NL)) true 4 false = Ok (mkHGR 1 2 0 [[0;1]]%nat None (Some [1;1])) /\
  read_hgr (bytes ("1 2 10" ++ NL ++ "1 2" ++ NL ++ "1" ++ NL ++ "% comment" ++ NL ++ "1" ++ NL)) true 4 false = Err.
Proof. split; vm_compute; reflexivity. Qed.
(** Finding: a Metis file whose last vertex line is missing is rejected or accepted (with vertex weight 0) depending on the
    number of ranges, i.e. on the number of hardware threads. *)
Theorem C49_refuted_missing_line :
  let file := bytes ("3 2 10" ++ NL ++ "5 2 3" ++ NL ++ "5" ++ NL) in
  read_metis file true 2 = Err /\ read_metis file true 8 = Ok (mkMetis 2 3 [(0,1);(0,2)]%nat None (Some [5;5;0])).
Proof. split; vm_compute; reflexivity. Qed.
