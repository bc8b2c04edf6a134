(** IORead2.v - C33 (hMetis): the reader returns the hypergraph described by the file, for every number of ranges. *)
From Verif Require Import Base Sorting Construct IO IOSafe IORead.

Section Read2.
Variable file : list Z.
Notation len := (len file).
Notation rd := (rd file true).
Notation At := (At file).

Lemma Line_hd vs w r : Line vs w r -> hd 0 w <> 37 /\ w <> [] /\ exists x, x <> [] /\ w = x ++ r.
Proof.
  intros (s & t & -> & [(b & s' & Bb & -> & T)|(-> & -> & Nt)] & E).
  - destruct (Toks_hd _ _ T) as (c & s2 & -> & Hc). split; [|split].
    + destruct b as [|c' b]; cbn; [lia|]. inversion Bb; subst. discriminate.
    + destruct b; discriminate.
    + destruct (Eol_suffix _ _ E) as (x & ->). exists ((b ++ c :: s2) ++ x). split; [destruct b; discriminate|]. rewrite <- !app_assoc. reflexivity.
  - destruct E as [r|r|]; try congruence; cbn; (split; [lia|split; [discriminate|]]); [exists [10]|exists [13; 10]]; split; try discriminate; reflexivity.
Qed.
Lemma Comments_suffix w r : Comments w r -> exists x, w = x ++ r.
Proof.
  induction 1 as [w|w w' r (body & t & -> & _ & E) _ (x & ->)]; [exists []; reflexivity|].
  destruct (Eol_suffix _ _ E) as (y & ->). exists (37 :: body ++ y ++ x). cbn. rewrite <- !app_assoc. reflexivity.
Qed.
Lemma Line_no_lf vs s : Nums vs s \/ s = [] -> Forall (fun c => c <> 10) s.
Proof.
  intros [(b & s' & Bb & -> & T)| ->]; [|constructor]. apply Forall_app. split; [eapply Forall_impl; [|exact Bb]; intros c ->; discriminate|].
  assert (D : forall d, digits d -> Forall (fun c => c <> 10) d) by (intros d [_ F]; eapply Forall_impl; [|exact F]; intros c Hc; cbn in Hc; lia).
  assert (B : forall d, blanks d -> Forall (fun c => c <> 10) d) by (intros d F; eapply Forall_impl; [|exact F]; intros c ->; discriminate).
  induction T; rewrite ?Forall_app; auto.
Qed.

(** *** Header *)
Lemma read_header_At a b f we wv w0 w1 : Comments file w0 -> Line (a :: b :: f) w0 w1 -> Format we wv f -> a <= MAXID -> b <= MAXID ->
  exists p, read_header file true = Ok (a, b, we, wv, p) /\ At p w1 /\ (1 <= p <= len)%nat /\ 0 <= a /\ 0 <= b.
Proof.
  intros C L F Ha Hb. unfold read_header.
  assert (A0 : At 0 file) by (split; [lia|reflexivity]).
  destruct (comments_At file file w0 0 C A0 (proj1 (Line_hd _ _ _ L))) as (p0 & -> & A1 & _). cbn [bind].
  destruct L as (s & t & -> & [(bl & s' & Bb & -> & T)|(X & _)] & E); [|discriminate]. rewrite <- app_assoc in A1.
  pose proof (Eol_hd _ _ E) as Le. assert (M : 0 <= MAXID) by (unfold MAXID; lia).
  pose proof (At_len _ _ _ A1) as LA. rewrite !app_length in LA.
  destruct (read_tok file MAXID len bl a (b :: f) s' t p0 M Bb T Le A1 ltac:(lia) ltac:(lia)) as (s1 & q1 & R1 & Na & A2 & T1 & L1 & D1).
  rewrite R1. rewrite (proj2 (Z.leb_le _ _) Ha). cbn [bind].
  destruct T1 as [[X _]|T1]; [discriminate|]. change s1 with ([] ++ s1) in A2.
  destruct (read_tok file MAXID len [] b f s1 t q1 M ltac:(constructor) T1 Le A2 ltac:(cbn; lia) ltac:(lia)) as (s2 & q2 & R2 & Nb & A3 & T2 & L2 & D2).
  rewrite R2. rewrite (proj2 (Z.leb_le _ _) Hb). cbn [bind].
  assert (FM : exists q3, read_format file true q2 = Ok (we, wv, q3) /\ At q3 t /\ (q2 <= q3)%nat).
  { unfold read_format. rewrite (At_rd _ _ _ A3). cbn [bind]. destruct T2 as [[Ef Es]|T2].
    - subst f s2. cbn [app] in *. rewrite Le. destruct F as [(_ & -> & ->)|F]; [|discriminate]. exists q2. split; [reflexivity|]. split; [exact A3|lia].
    - destruct F as [(-> & _)|F]; [inversion T2|]. rewrite F in T2. destruct (Toks_hd _ _ T2) as (c & s3 & Es & Hc). replace (hd 0 (s2 ++ t)) with c by (rewrite Es; reflexivity).
      rewrite is_le_digit by exact Hc. change s2 with ([] ++ s2) in A3.
      destruct (read_tok file MAXID len [] _ [] s2 t q2 M ltac:(constructor) T2 Le A3 ltac:(cbn [length] in *; lia) ltac:(lia)) as (s4 & q4 & R4 & _ & A4 & T4 & L4 & _).
      rewrite R4. destruct T4 as [[_ ->]|T4]; [|inversion T4]. cbn [app length] in *.
      exists q4. assert (V : 10 * Z.b2z wv + Z.b2z we <= MAXID) by (destruct wv, we; cbn; unfold MAXID; lia).
      rewrite (proj2 (Z.leb_le _ _) V). cbn [bind]. split; [|split; [exact A4|lia]]. destruct wv, we; reflexivity. }
  destruct FM as (q3 & -> & A4 & L3). cbn [bind]. destruct (do_line_ending_At file t w1 q3 A4 E) as (q4 & -> & A5 & L4). cbn [bind].
  exists q4. split; [reflexivity|]. split; [exact A5|]. cbn [length] in *. split; [destruct A5; lia|]. split; assumption.
Qed.

(** *** Lines and ranges *)
Section Rows.
Variables (m : nat) (vss : nat -> list Z) (W : nat -> list Z) (P : nat -> nat).
(** Row [k] is the text between suffixes [W k] and [W (S k)], which start at positions [P k] and [P (S k)]. *)
Hypothesis HR : forall k, (k < m)%nat -> Row (vss k) (W k) (W (S k)).
Hypothesis HP : forall k, (k <= m)%nat -> At (P k) (W k).

Lemma P_lt k : (k < m)%nat -> (P k < P (S k))%nat.
Proof.
  intros Hk. destruct (HR k Hk) as (w & C & L). destruct (Comments_suffix _ _ C) as (x & E). destruct (Line_hd _ _ _ L) as (_ & _ & y & Ny & Ey).
  pose proof (At_len _ _ _ (HP k ltac:(lia))) as A. pose proof (At_len _ _ _ (HP (S k) ltac:(lia))) as B. rewrite E, Ey, !app_length in A.
  destruct y; [congruence|]. cbn [length] in A. lia.
Qed.
Lemma P_mono i j : (i <= j)%nat -> (j <= m)%nat -> (P i <= P j)%nat.
Proof. intros H. induction j as [|j IH]; intros L; [replace i with 0%nat by lia; lia|]. destruct (Nat.eq_dec i (S j)) as [->|]; [lia|]. specialize (IH ltac:(lia) ltac:(lia)). pose proof (P_lt j ltac:(lia)). lia. Qed.

Lemma split_loop_At w' : Comments (W m) w' -> hd 0 w' <> 37 -> forall c k acc, (k + c = m)%nat ->
  exists p, split_loop file true c (P k) acc = Ok (acc ++ map P (seq (S k) c), p) /\ At p w' /\ (P m <= p)%nat.
Proof.
  intros C N. induction c as [|c IH]; intros k acc E; cbn [split_loop].
  - replace k with m by lia. destruct (comments_u_At file _ _ C (S len - P m) (P m) (HP m ltac:(lia)) N) as (q & -> & A & L); [destruct (HP m ltac:(lia)); lia|].
    cbn [bind seq map]. exists q. rewrite app_nil_r. split; [reflexivity|]. split; [exact A|exact L].
  - destruct (HR k ltac:(lia)) as (w1 & C1 & L1). destruct (Line_hd _ _ _ L1) as (N1 & Ne & _).
    destruct (comments_u_At file _ _ C1 (S len - P k) (P k) (HP k ltac:(lia)) N1) as (q & -> & A & L); [destruct (HP k ltac:(lia)); lia|]. cbn [bind].
    pose proof (At_len _ _ _ A) as LA. destruct w1 as [|c1 w1]; [congruence|]. cbn [length] in LA. destruct (Nat.leb_spec len q); [lia|].
    assert (G : goto_unchecked file q = P (S k)).
    { apply (At_eq file _ _ (W (S k))); [|apply HP; lia]. destruct L1 as (s & t & Es & X & Et). rewrite Es in A. apply (goto_unchecked_At file s t); [exact A| |exact Et].
      apply (Line_no_lf (vss k)). destruct X as [X|(_ & -> & _)]; auto. }
    rewrite G. destruct (IH (S k) (acc ++ [P (S k)]) ltac:(lia)) as (p & E1 & E2 & E3). exists p. rewrite E1. rewrite <- app_assoc. split; [reflexivity|]. auto.
Qed.

Context {A : Type}.
Variables (row : nat -> nat -> nat -> res (A * nat)) (g : nat -> A).
Hypothesis Hrow : forall k lim p w q, (k < m)%nat -> Line (vss k) w (W (S k)) -> At p w -> At q (W (S k)) -> (q <= lim)%nat -> (lim <= len)%nat ->
  row lim k p = Ok (g k, q).

Lemma read_rows_At : forall c k lim, (k + c <= m)%nat -> (P (k + c)%nat <= lim)%nat -> (lim <= len)%nat ->
  read_rows file true row c lim k (P k) = Ok (map g (seq k c), P (k + c)%nat).
Proof.
  induction c as [|c IH]; intros k lim H1 H2 H3; cbn [read_rows]; [rewrite Nat.add_0_r; reflexivity|].
  destruct (HR k ltac:(lia)) as (w1 & C1 & L1). destruct (comments_At file _ _ (P k) C1 (HP k ltac:(lia)) (proj1 (Line_hd _ _ _ L1))) as (q & -> & Aq & _). cbn [bind].
  rewrite (Hrow k lim q w1 (P (S k)) ltac:(lia) L1 Aq (HP (S k) ltac:(lia))); [|pose proof (P_mono (S k) (k + S c) ltac:(lia) ltac:(lia)); lia|exact H3].
  cbn [bind]. rewrite (IH (S k) lim); [|lia|replace (S k + c)%nat with (k + S c)%nat by lia; exact H2|exact H3]. cbn [bind seq map].
  replace (S k + c)%nat with (k + S c)%nat by lia. reflexivity.
Qed.

Definition Pl : list nat := map P (seq 0 (S m)).
Lemma Pl_nth k : (k <= m)%nat -> nth k Pl 0%nat = P k.
Proof.
  intros H. unfold Pl. rewrite nth_indep with (d' := P 0%nat) by (rewrite map_length, seq_length; lia). rewrite map_nth, seq_nth by lia. reflexivity.
Qed.
Lemma Pl_length : length Pl = S m.
Proof. unfold Pl. rewrite map_length, seq_length. reflexivity. Qed.
(** The ranges cover the rows from [k] on consecutively. *)
Lemma ranges_At b : forall fuel k, (k <= m)%nat -> (m - k < fuel)%nat ->
  par_all (map (fun r => '(l, _) <- read_rows file true row (r_lines r) (r_end r) (r_index r) (r_start r) ;; Ok l) (ranges Pl b fuel k)) =
    Ok (map (fun r => map g (seq (r_index r) (r_lines r))) (ranges Pl b fuel k)) /\
  flat_map (fun r => seq (r_index r) (r_lines r)) (ranges Pl b fuel k) = seq k (m - k).
Proof.
  induction fuel as [|f IH]; intros k Hk Hf; [lia|]. cbn [ranges]. rewrite Pl_length. destruct (Nat.ltb_spec (S k) (S m)) as [C|C].
  - pose proof (advance_range Pl b (S m) k k ltac:(rewrite Pl_length; lia)) as J. rewrite Pl_length in J. set (j := advance Pl b (S m) k k) in *.
    unfold pos_. rewrite !Pl_nth by lia.
    assert (Lt : (P k < P j)%nat) by (pose proof (P_lt k ltac:(lia)); pose proof (P_mono (S k) j ltac:(lia) ltac:(lia)); lia).
    destruct (Nat.ltb_spec 0 (P j - P k)) as [D|D]; [|lia]. destruct (IH j ltac:(lia) ltac:(lia)) as [I1 I2]. cbn [app map par_all flat_map r_lines r_end r_index r_start].
    rewrite (read_rows_At (j - k) k (P j)); [|lia|replace (k + (j - k))%nat with j by lia; lia|destruct (HP j ltac:(lia)); assumption]. cbn [bind].
    rewrite I1, I2. split; [reflexivity|]. replace (m - k)%nat with ((j - k) + (m - j))%nat by lia. rewrite seq_app. replace (k + (j - k))%nat with j by lia. reflexivity.
  - replace (m - k)%nat with 0%nat by lia. split; reflexivity.
Qed.

Lemma read_lines_At nr w' : (1 <= nr)%nat -> (1 <= P 0)%nat -> Comments (W m) w' -> hd 0 w' <> 37 ->
  exists rs p, split_lines file true nr (P 0) m = Ok (rs, p) /\ At p w' /\
    read_ranges file true row nr rs = Ok (map (fun r => map g (seq (r_index r) (r_lines r))) rs) /\
    flat_map (fun r => seq (r_index r) (r_lines r)) rs = seq 0 m.
Proof.
  intros Hnr HP0 C N. pose proof (HP 0 ltac:(lia)) as A0.
  pose proof (split_lines_safe file nr (P 0) m Hnr ltac:(destruct A0; lia)) as S1.
  unfold split_lines in *. destruct (split_loop_At w' C N m 0 [P 0] ltac:(lia)) as (p & E & Ap & Lp). rewrite E in *. cbn [bind] in *.
  change ([P 0] ++ map P (seq 1 m)) with Pl in *. rewrite Pl_length, Nat.ltb_irrefl in *. cbn [bind] in *. rewrite Pl_length in *. rewrite Nat.ltb_irrefl in *. cbn [safe fst snd] in S1.
  destruct S1 as (_ & S2 & _). exists (ranges Pl ((p - P 0) / nr + 1) (S m) 0), p. split; [reflexivity|]. split; [exact Ap|].
  destruct (ranges_At ((p - P 0) / nr + 1) (S m) 0 ltac:(lia) ltac:(lia)) as [I1 I2]. rewrite Nat.sub_0_r in I2. split; [|exact I2].
  unfold read_ranges. rewrite (proj2 (Nat.leb_le _ _) S2). exact I1.
Qed.
End Rows.

(** Rows as functions of the row index. *)
Lemma Rows_fun vss w r : Rows vss w r -> forall p, At p w -> exists W P,
  W 0%nat = w /\ W (length vss) = r /\ P 0%nat = p /\ (forall k, (k < length vss)%nat -> Row (nth k vss []) (W k) (W (S k))) /\ (forall k, (k <= length vss)%nat -> At (P k) (W k)).
Proof.
  induction 1 as [w|vs vss w w' r R RS IH]; intros p A.
  - exists (fun _ => w), (fun _ => p). repeat split; try (intros; simpl in *; lia); destruct A; assumption.
  - assert (A' : exists q, At q w').
    { destruct R as (w1 & C & L). destruct (Comments_suffix _ _ C) as (x & ->). destruct (Line_hd _ _ _ L) as (_ & _ & y & _ & ->).
      exists (p + length x + length y)%nat. apply At_adv, At_adv, A. }
    destruct A' as (q & Aq). destruct (IH q Aq) as (W & P & E1 & E2 & E3 & E4 & E5).
    exists (fun k => match k with O => w | S k => W k end), (fun k => match k with O => p | S k => P k end). repeat split.
    + exact E2.
    + intros [|k] Hk; cbn [nth length] in *; [rewrite E1; exact R|apply E4; lia].
    + destruct k; [apply A|apply E5; simpl in H; lia].
    + destruct k; [apply A|apply E5; simpl in H; lia].
Qed.

(** *** hMetis rows *)
Lemma hgr_pins_toks n lim t : is_le (hd 0 t) = true -> (lim <= len)%nat -> n <= MAXID -> forall vs fuel s p, Toks0 vs s -> Forall (fun v => 1 <= v <= n) vs ->
  At p (s ++ t) -> (p + length s <= lim)%nat -> (length s < fuel)%nat ->
  hgr_pins file true fuel n lim p = Ok (map (fun v => Z.to_nat (v - 1)) vs, (p + length s)%nat).
Proof.
  intros Le Hl Hn. induction vs as [|v vs IH]; intros fuel s p T F A Hp Hf; (destruct fuel as [|f]; [lia|]); cbn [hgr_pins].
  - destruct T as [[_ ->]|T]; [|inversion T]. rewrite (At_rd _ _ _ A). cbn [app bind length map]. rewrite Le, Nat.add_0_r. reflexivity.
  - destruct T as [[X _]|T]; [discriminate|]. destruct (Toks_hd _ _ T) as (c & s2 & Es & Hc). inversion F; subst.
    rewrite (At_rd _ _ _ A). cbn [app hd bind]. rewrite is_le_digit by exact Hc. change ((c :: s2) ++ t) with ([] ++ (c :: s2) ++ t) in A.
    destruct (read_tok file MAXID lim [] v vs (c :: s2) t p ltac:(unfold MAXID; lia) ltac:(constructor) T Le A ltac:(cbn [length] in *; lia) Hl) as (s' & q & R & _ & Aq & T' & L' & D').
    rewrite R. rewrite (proj2 (Z.leb_le v MAXID)) by lia. cbn [bind]. destruct (Z.eqb_spec v 0); [lia|]. destruct (Z.ltb_spec n v); [lia|].
    rewrite (IH f s' q T' H2 Aq ltac:(cbn [length] in *; lia) ltac:(cbn [length] in *; lia)). cbn [bind map]. rewrite L'. cbn [length]. rewrite Nat.add_0_r. reflexivity.
Qed.
Lemma hgr_pins_nums n lim t vs s p : is_le (hd 0 t) = true -> (lim <= len)%nat -> n <= MAXID -> Nums vs s -> Forall (fun v => 1 <= v <= n) vs ->
  At p (s ++ t) -> (p + length s <= lim)%nat -> hgr_pins file true (S len) n lim p = Ok (map (fun v => Z.to_nat (v - 1)) vs, (p + length s)%nat).
Proof.
  intros Le Hl Hn (b & s' & Bb & -> & T) F A Hp. destruct vs as [|v vs]; [inversion T|]. inversion F; subst. cbn [hgr_pins].
  assert (NL : is_le (hd 0 ((b ++ s') ++ t)) = false).
  { destruct (Toks_hd _ _ T) as (c & s2 & -> & Hc). destruct b as [|c' b]; cbn; [apply is_le_digit, Hc|]. inversion Bb; subst. reflexivity. }
  rewrite (At_rd _ _ _ A). cbn [bind]. rewrite NL. rewrite <- app_assoc in A. rewrite app_length in Hp.
  pose proof (At_len _ _ _ A) as LA. rewrite !app_length in LA.
  destruct (read_tok file MAXID lim b v vs s' t p ltac:(unfold MAXID; lia) Bb T Le A ltac:(lia) Hl) as (s2 & q & R & _ & Aq & T' & L' & D').
  rewrite R. rewrite (proj2 (Z.leb_le v MAXID)) by lia. cbn [bind]. destruct (Z.eqb_spec v 0); [lia|]. destruct (Z.ltb_spec n v); [lia|].
  rewrite (hgr_pins_toks n lim t Le Hl Hn vs len s2 q T' H2 Aq ltac:(lia) ltac:(lia)). cbn [bind map]. rewrite app_length.
  f_equal. f_equal. lia.
Qed.

(** The numbers of a hyperedge line: optional weight, vertex ids starting at 1. *)
Definition hgr_line (we : bool) (e : Z * list nat) : list Z := (if we then [fst e] else []) ++ map (fun p => Z.of_nat p + 1) (snd e).

Lemma map_pred_succ l : map (fun v => Z.to_nat (v - 1)) (map (fun p => Z.of_nat p + 1) l) = l.
Proof. rewrite map_map. rewrite <- (map_id l) at 2. apply map_ext. intros p. lia. Qed.
Lemma hgr_row_At we n lim k p e w r q : Line (hgr_line we e) w r -> snd e <> [] -> (forall p, In p (snd e) -> Z.of_nat p < n) -> n <= MAXID -> (we = true -> fst e <= MAXW) ->
  At p w -> At q r -> (q <= lim)%nat -> (lim <= len)%nat ->
  hgr_row file true we n lim k p = Ok (((if we then fst e else 0), dedup (snd e)), q).
Proof.
  intros (s & t & -> & X & E) Ne Hpin Hn Hw A Aq Hq Hl. destruct e as [ww pins]. cbn [fst snd] in *.
  assert (Nu : Nums (hgr_line we (ww, pins)) s).
  { destruct X as [X|(X & _)]; [exact X|]. unfold hgr_line in X. cbn [fst snd] in X. apply app_eq_nil in X. destruct X as [_ X]. apply map_eq_nil in X. contradiction. }
  unfold hgr_line in Nu. cbn [fst snd] in Nu. pose proof (Eol_hd _ _ E) as Le.
  assert (FP : Forall (fun v => 1 <= v <= n) (map (fun p => Z.of_nat p + 1) pins)).
  { apply Forall_forall. intros v Hv. apply in_map_iff in Hv. destruct Hv as (x & <- & Hx). specialize (Hpin x Hx). lia. }
  assert (PL : (p + length s <= q)%nat).
  { pose proof (At_len _ _ _ A) as LA. pose proof (At_len _ _ _ Aq) as LQ. rewrite app_length in LA. destruct (Eol_suffix _ _ E) as (x & Ex). rewrite Ex, app_length in LA. lia. }
  assert (FIN : forall p', p' = (p + length s)%nat -> forall v : Z, (match pins with [] => Err | _ => Ok ((v, dedup pins), q) end) =
     (p0 <- do_line_ending file true p' ;; match pins with [] => Err | _ => Ok ((v, dedup pins), p0) end)).
  { intros p' -> v. destruct (do_line_ending_At file t r _ (At_adv _ _ _ _ A) E) as (q' & -> & Aq' & _). cbn [bind]. rewrite (At_eq file _ _ _ Aq' Aq). reflexivity. }
  unfold hgr_row. destruct we.
  - destruct Nu as (b & s' & Bb & -> & T). cbn [app] in T. rewrite <- app_assoc in A. rewrite app_length in PL.
    destruct (read_tok file MAXW lim b ww _ s' t p ltac:(unfold MAXW; lia) Bb T Le A ltac:(lia) Hl) as (s2 & q2 & R & _ & Aq2 & T' & L' & D').
    rewrite R. rewrite (proj2 (Z.leb_le ww MAXW)) by (apply Hw; reflexivity). cbn [bind].
    pose proof (At_len _ _ _ Aq2) as L2. rewrite app_length in L2.
    rewrite (hgr_pins_toks n lim t Le Hl Hn _ (S len) s2 q2 T' FP Aq2 ltac:(lia) ltac:(lia)). cbn [bind]. rewrite map_pred_succ.
    rewrite <- FIN by (rewrite app_length; lia). destruct pins; [contradiction|reflexivity].
  - cbn [app] in Nu. cbn [bind]. rewrite (hgr_pins_nums n lim t _ s p Le Hl Hn Nu FP A ltac:(lia)). cbn [bind]. rewrite map_pred_succ.
    rewrite <- FIN by reflexivity. destruct pins; [contradiction|reflexivity].
Qed.
Lemma read_weights_At : forall ws w r p, Lines (map (fun x => [x]) ws) w r -> Forall (fun x => x <= MAXW) ws -> At p w ->
  exists q, read_weights file true (length ws) p = Ok (ws, q) /\ At q r.
Proof.
  induction ws as [|x ws IH]; intros w r p L F A; cbn [length read_weights map] in *.
  - inversion L; subst. exists p. split; [reflexivity|exact A].
  - inversion L as [|vs0 vss0 w0 w' r0 L1 L2]; subst.
    inversion F as [|? ? Hx F']; subst. destruct L1 as (s & t & -> & X & E).
    destruct X as [(b & s' & Bb & -> & T)|(X & _)]; [|discriminate]. pose proof (Eol_hd _ _ E) as Le. rewrite <- app_assoc in A.
    pose proof (At_len _ _ _ A) as LA. rewrite !app_length in LA.
    assert (0 < length s')%nat by (destruct (Toks_hd _ _ T) as (c & s2 & -> & _); simpl; lia). destruct (Nat.leb_spec len p); [lia|].
    destruct (read_tok file MAXW len b x [] s' t p ltac:(unfold MAXW; lia) Bb T Le A ltac:(lia) ltac:(lia)) as (s2 & q2 & R & _ & Aq2 & T' & L' & D').
    rewrite R. rewrite (proj2 (Z.leb_le x MAXW) Hx). cbn [bind]. destruct T' as [[_ ->]|T']; [|inversion T'].
    destruct (do_line_ending_At file t w' q2 Aq2 E) as (q3 & -> & A3 & _). cbn [bind].
    destruct (IH w' r q3 L2 F' A3) as (q4 & -> & A4). cbn [bind]. exists q4. auto.
Qed.
End Read2.

(** *** C33 *)
(** A hypergraph: vertices 0..n-1, hyperedges with weight, optional vertex weights. *)
Record hdesc := mkD { d_n : nat; d_rows : list (Z * list nat); d_we : bool; d_nw : option (list Z) }.
(** Everything fits the 32-bit types; every hyperedge has a pin and all pins are vertices. *)
Definition hdesc_ok (D : hdesc) : Prop :=
  Z.of_nat (d_n D) <= MAXID /\ Z.of_nat (length (d_rows D)) <= MAXID /\
  (forall e, In e (d_rows D) -> snd e <> [] /\ (forall p, In p (snd e) -> (p < d_n D)%nat) /\ fst e <= MAXW) /\
  (forall ws, d_nw D = Some ws -> length ws = d_n D /\ Forall (fun x => x <= MAXW) ws).
(** [file] is an hMetis file describing [D]: comments may precede the header and every hyperedge line, follow the last
    hyperedge line and end the file, but not stand between vertex weights. *)
Definition HgrFile (D : hdesc) (file : list Z) : Prop :=
  exists f w0 w1 w2 w3 w4,
    Comments file w0 /\
    Format (d_we D) (match d_nw D with Some _ => true | None => false end) f /\
    Line (Z.of_nat (length (d_rows D)) :: Z.of_nat (d_n D) :: f) w0 w1 /\
    Rows (map (hgr_line (d_we D)) (d_rows D)) w1 w2 /\
    Comments w2 w3 /\ hd 0 w3 <> 37 /\
    Lines (map (fun x => [x]) (match d_nw D with Some ws => ws | None => [] end)) w3 w4 /\
    Comments w4 [].
(** What the reader shall return: hyperedges with at least two (distinct) pins if [remove_single], all pins sorted and
    without duplicates, in file order. *)
Definition hdesc_result (D : hdesc) (remove_single : bool) : hgr :=
  let rows := map (fun e => (fst e, sort_uniq (snd e))) (d_rows D) in
  let ok := filter (fun e => negb remove_single || (1 <? length (snd e))%nat) rows in
  mkHGR (Z.of_nat (length ok)) (Z.of_nat (d_n D)) (Z.of_nat (length rows - length ok)) (map snd ok)
        (if d_we D then Some (map fst ok) else None) (d_nw D).

Lemma filter_split_length {A} (f : A -> bool) l : (length (filter f l) + length (filter (fun x => negb (f x)) l) = length l)%nat.
Proof. induction l as [|a l IH]; simpl; [reflexivity|]. destruct (f a); simpl; lia. Qed.
Lemma concat_map_filter {A} (f : A -> bool) ls : concat (map (filter f) ls) = filter f (concat ls).
Proof. induction ls as [|a l IH]; simpl; [reflexivity|]. rewrite filter_app, IH. reflexivity. Qed.
Lemma to_global_id {A} (d : A) l : to_global d (length l) l = l.
Proof. unfold to_global. rewrite Nat.sub_diag, app_nil_r. apply firstn_all. Qed.

Theorem C33_hmetis_read D file nr rm : hdesc_ok D -> HgrFile D file -> (1 <= nr)%nat ->
  read_hgr file true nr rm = Ok (hdesc_result D rm).
Proof.
  intros (O1 & O2 & O3 & O4) (f & w0 & w1 & w2 & w3 & w4 & G1 & G2 & G3 & G4 & G5 & G6 & G7 & G8) Hnr.
  unfold read_hgr. assert (NE : (len file =? 0)%nat = false).
  { apply Nat.eqb_neq. intros E. unfold len in E. destruct file as [|c fl]; [|discriminate]. destruct (Comments_suffix _ _ G1) as (x & Ex).
    destruct (Line_hd _ _ _ G3) as (_ & Nw & _). symmetry in Ex. apply app_eq_nil in Ex. tauto. }
  rewrite NE. destruct (read_header_At file _ _ _ _ _ _ _ G1 G3 G2 O2 O1) as (p & -> & A1 & Hp & _ & _). cbn [bind].
  destruct (Rows_fun file _ _ _ G4 p A1) as (W & P & E1 & E2 & E3 & E4 & E5). rewrite map_length in E2, E4, E5. set (m := length (d_rows D)) in *.
  set (we := d_we D) in *. set (g := fun k => let e := nth k (d_rows D) (0, []) in ((if we then fst e else 0), dedup (snd e))).
  destruct (read_lines_At file m (fun k => nth k (map (hgr_line we) (d_rows D)) []) W P E4 E5 (hgr_row file true we (Z.of_nat (d_n D))) g) with (nr := nr) (w' := w3) as (rs & p1 & R1 & R2 & R3 & R4).
  - intros k lim p' w q Hk L Ap Aq Hq Hl. unfold g. cbv zeta.
    assert (EL : nth k (map (hgr_line we) (d_rows D)) [] = hgr_line we (nth k (d_rows D) (0, []))).
    { rewrite nth_indep with (d' := hgr_line we (0, [])) by (rewrite map_length; exact Hk). apply map_nth. }
    rewrite EL in L. destruct (O3 (nth k (d_rows D) (0, [])) ltac:(apply nth_In; exact Hk)) as (Q1 & Q2 & Q3).
    apply (hgr_row_At file we (Z.of_nat (d_n D)) lim k p' _ w (W (S k)) q L Q1); try assumption; [intros x Hx; specialize (Q2 x Hx); lia|intros _; exact Q3].
  - exact Hnr.
  - rewrite E3. lia.
  - rewrite E2. exact G5.
  - exact G6.
  - rewrite E3 in R1. rewrite (Nat2Z.id m), R1. cbn [bind]. rewrite R3. cbn [bind]. cbv zeta.
    set (ls := map (fun r => map g (seq (r_index r) (r_lines r))) rs).
    assert (CL : concat ls = map g (seq 0 m)). { unfold ls. rewrite <- R4. rewrite flat_map_concat_map, concat_map, map_map. reflexivity. }
    assert (GM : map g (seq 0 m) = map (fun e => ((if we then fst e else 0), sort_uniq (snd e))) (d_rows D)).
    { unfold g, m. clear. generalize (d_rows D) as l. intros l. transitivity (map (fun e : Z * list nat => ((if we then fst e else 0), sort_uniq (snd e))) (map (fun k => nth k l (0, [])) (seq 0 (length l)))).
      - rewrite map_map. apply map_ext. intros k. cbv zeta. rewrite dedup_spec. reflexivity.
      - f_equal. apply nth_ext with (d := (0, [])) (d' := (0, [])); [rewrite map_length, seq_length; reflexivity|]. intros j Hj. rewrite map_length, seq_length in Hj.
        rewrite nth_indep with (d' := (fun k => nth k l (0, [])) 0%nat) by (rewrite map_length, seq_length; exact Hj). rewrite (map_nth (fun k => nth k l (0, []))), seq_nth by exact Hj. reflexivity. }
    rewrite GM in CL. rewrite concat_map_filter, CL.
    assert (RM : list_sum (map (fun l => length (filter (fun e => negb (kept rm e)) l)) ls) = length (filter (fun e => negb (kept rm e)) (concat ls))).
    { clear. induction ls as [|a l IH]; [reflexivity|]. simpl. rewrite filter_app, app_length, IH. reflexivity. }
    rewrite RM, CL. set (rows := map (fun e : Z * list nat => (if we then fst e else 0, sort_uniq (snd e))) (d_rows D)) in *.
    assert (LR : length rows = m) by (unfold rows; rewrite map_length; reflexivity).
    pose proof (filter_split_length (kept rm) rows) as FS. rewrite LR in FS.
    set (ok := filter (kept rm) rows) in *.
    assert (MM : Z.of_nat m - Z.of_nat (length (filter (fun e => negb (kept rm e)) rows)) = Z.of_nat (length ok)) by lia.
    rewrite MM, (Nat2Z.id (length ok)).
    assert (NWS : exists p2, (if match d_nw D with Some _ => true | None => false end
        then '(l, p0) <- read_weights file true (Z.to_nat (Z.of_nat (d_n D))) p1 ;; Ok (Some l, p0) else Ok (None, p1)) = Ok (d_nw D, p2) /\ At file p2 w4).
    { destruct (d_nw D) as [ws|] eqn:En.
      - destruct (O4 ws eq_refl) as [Lw Fw]. destruct (read_weights_At file ws w3 w4 p1 G7 Fw R2) as (q & Eq & Aq).
        rewrite Nat2Z.id, <- Lw, Eq. cbn [bind]. exists q. auto.
      - inversion G7; subst. exists p1. auto. }
    destruct NWS as (p2 & -> & A2). cbn [bind].
    assert (N0 : hd 0 (@nil Z) <> 37) by (cbn; lia).
    destruct (comments_At file w4 [] p2 G8 A2 N0) as (p3 & -> & A3 & _). cbn [bind].
    pose proof (At_len _ _ _ A3) as L3. cbn [length] in L3. replace p3 with (len file) by lia. rewrite Nat.eqb_refl.
    set (rows2 := map (fun e => (fst e, sort_uniq (snd e))) (d_rows D)). set (ok2 := filter (kept rm) rows2).
    assert (LO : length ok = length ok2 /\ map snd ok = map snd ok2 /\ (we = true -> map fst ok = map fst ok2)).
    { unfold ok, ok2, rows, rows2, kept. clear. induction (d_rows D) as [|e l (I1 & I2 & I3)]; [auto|]. cbn [map filter snd].
      destruct (negb rm || (1 <? length (sort_uniq (snd e)))%nat); cbn [length map fst snd]; repeat split; try congruence.
      + intros X. rewrite (I3 X), X. reflexivity.
      + exact I3. }
    destruct LO as (LO1 & LO2 & LO3).
    assert (RES : hdesc_result D rm = mkHGR (Z.of_nat (length ok2)) (Z.of_nat (d_n D)) (Z.of_nat (length rows2 - length ok2)) (map snd ok2) (if we then Some (map fst ok2) else None) (d_nw D)) by reflexivity.
    rewrite RES, <- LO1, <- LO2. f_equal. f_equal.
    + unfold rows2. rewrite map_length. fold m. lia.
    + rewrite <- (map_length snd ok). apply to_global_id.
    + clearbody ok ok2 we. destruct we; [|reflexivity]. rewrite <- (LO3 eq_refl). rewrite <- (map_length fst ok), to_global_id. reflexivity.
Qed.
