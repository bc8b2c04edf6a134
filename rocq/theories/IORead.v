(** IORead.v - C32/C33: what the readers return for files in the documented formats. *)
From Verif Require Import Base Sorting Construct IO IOSafe.

(** *** The file format (specification; independent of the reader) *)
Definition digits (d : list Z) : Prop := d <> [] /\ Forall (fun c => 48 <= c <= 57) d.
(** Decimal value. *)
Definition val (d : list Z) : Z := fold_left (fun a c => 10 * a + (c - 48)) d 0.
Definition blanks (s : list Z) : Prop := Forall (fun c => c = 32) s.
(** [Eol t r]: [t] is a line end (LF, CR LF, or the end of the file) followed by [r]. *)
Inductive Eol : list Z -> list Z -> Prop :=
| eol_lf r : Eol (10 :: r) r
| eol_crlf r : Eol (13 :: 10 :: r) r
| eol_eof : Eol [] [].
(** Numbers separated by blanks, with optional leading and trailing blanks. *)
Inductive Toks : list Z -> list Z -> Prop :=
| toks_one d t : digits d -> blanks t -> Toks [val d] (d ++ t)
| toks_more d t vs s : digits d -> blanks t -> t <> [] -> Toks vs s -> Toks (val d :: vs) (d ++ t ++ s).
Definition Nums (vs : list Z) (s : list Z) : Prop := exists b s', blanks b /\ s = b ++ s' /\ Toks vs s'.
(** [w] is a comment line followed by [r]. *)
Definition Comment (w r : list Z) : Prop :=
  exists body t, w = 37 :: body ++ t /\ Forall (fun c => c <> 0 /\ c <> 10 /\ c <> 13) body /\ Eol t r.
Inductive Comments : list Z -> list Z -> Prop :=
| com_nil w : Comments w w
| com_cons w w' r : Comment w w' -> Comments w' r -> Comments w r.
(** [w] is a line with the numbers [vs] followed by [r]; an empty line must be terminated. *)
Definition Line (vs : list Z) (w r : list Z) : Prop :=
  exists s t, w = s ++ t /\ (Nums vs s \/ (vs = [] /\ s = [] /\ t <> [])) /\ Eol t r.
Definition Row (vs : list Z) (w r : list Z) : Prop := exists w', Comments w w' /\ Line vs w' r.
Inductive Rows : list (list Z) -> list Z -> list Z -> Prop :=
| rows_nil w : Rows [] w w
| rows_cons vs vss w w' r : Row vs w w' -> Rows vss w' r -> Rows (vs :: vss) w r.
Inductive Lines : list (list Z) -> list Z -> list Z -> Prop :=
| lines_nil w : Lines [] w w
| lines_cons vs vss w w' r : Line vs w w' -> Lines vss w' r -> Lines (vs :: vss) w r.
(** The optional format number of the header. *)
Definition Format (we wv : bool) (f : list Z) : Prop :=
  (f = [] /\ we = false /\ wv = false) \/ f = [10 * Z.b2z wv + Z.b2z we].

Lemma Toks_hd vs s : Toks vs s -> exists c s', s = c :: s' /\ 48 <= c <= 57.
Proof.
  destruct 1 as [d t D _|d t vs s D _ _ _]; destruct D as [N F]; destruct d as [|c d]; try congruence; inversion F; subst; eexists; eexists; split; try reflexivity; assumption.
Qed.
Lemma Toks_ne vs s : Toks vs s -> vs <> [].
Proof. destruct 1; discriminate. Qed.
Lemma is_le_digit c : 48 <= c <= 57 -> is_le c = false.
Proof. intros H. unfold is_le. destruct (Z.eqb_spec c 13), (Z.eqb_spec c 10), (Z.eqb_spec c 0); try lia; reflexivity. Qed.
Lemma is_sep_digit c : 48 <= c <= 57 -> is_sep c = false.
Proof. intros H. unfold is_sep. rewrite is_le_digit by exact H. destruct (Z.eqb_spec c 32); [lia|reflexivity]. Qed.
Lemma Eol_hd t r : Eol t r -> is_le (hd 0 t) = true.
Proof. destruct 1; reflexivity. Qed.
Lemma Eol_suffix t r : Eol t r -> exists x, t = x ++ r.
Proof. destruct 1; [exists [10]|exists [13; 10]|exists []]; reflexivity. Qed.
Definition num_end (v : Z) (d : list Z) : Z := fold_left (fun a c => 10 * a + (c - 48)) d v.
Lemma num_end_mono d : forall v, 0 <= v -> Forall (fun c => 48 <= c <= 57) d -> v <= num_end v d.
Proof.
  induction d as [|c d IH]; intros v Hv F; [unfold num_end; simpl; lia|]. inversion F; subst. unfold num_end in *. cbn [fold_left].
  specialize (IH (10 * v + (c - 48)) ltac:(lia) H2). lia.
Qed.
Lemma val_nonneg d : digits d -> 0 <= val d.
Proof. intros [_ F]. apply (num_end_mono d 0); [lia|exact F]. Qed.

Lemma skipn_skipn_ {A} (l : list A) : forall a b, skipn a (skipn b l) = skipn (a + b) l.
Proof.
  induction l as [|x l IH]; intros a b; [rewrite !skipn_nil; reflexivity|]. destruct b as [|b]; [rewrite Nat.add_0_r; reflexivity|].
  rewrite Nat.add_succ_r. cbn [skipn]. apply IH.
Qed.
Section Read.
Variable file : list Z.
Notation len := (len file).
Notation rd := (rd file true).
(** Position [p] is where the suffix [w] of the file starts. *)
Definition At (p : nat) (w : list Z) : Prop := (p <= len)%nat /\ skipn p file = w.
Lemma At_len p w : At p w -> (p + length w = len)%nat.
Proof. intros [A <-]. rewrite skipn_length. unfold IO.len in *. lia. Qed.
Lemma At_rd p w : At p w -> rd p = Ok (hd 0 w).
Proof. intros [A <-]. apply rd_ok, A. Qed.
Lemma At_adv p s w : At p (s ++ w) -> At (p + length s) w.
Proof.
  intros A. pose proof (At_len _ _ A) as L. rewrite app_length in L. destruct A as [A E]. split; [lia|].
  rewrite Nat.add_comm. rewrite <- skipn_skipn_, E. rewrite skipn_app, skipn_all, Nat.sub_diag. reflexivity.
Qed.
Lemma At_1 p c w : At p (c :: w) -> At (S p) w.
Proof. intros A. pose proof (At_adv p [c] w A) as B. replace (S p) with (p + length [c])%nat by (simpl; lia). exact B. Qed.
Lemma At_eq p q w : At p w -> At q w -> p = q.
Proof. intros A B. apply At_len in A, B. lia. Qed.

Lemma scan_At stop s : forall w fuel p, At p (s ++ w) -> Forall (fun c => stop c = false) s -> stop (hd 0 w) = true -> (length s <= fuel)%nat ->
  scan file true fuel stop p = Ok (p + length s)%nat.
Proof.
  induction s as [|c s IH]; intros w fuel p A F S0 L; destruct fuel as [|f]; cbn [scan app length] in *; rewrite (At_rd _ _ A); cbn [bind hd].
  - rewrite S0, Nat.add_0_r. reflexivity.
  - rewrite S0, Nat.add_0_r. reflexivity.
  - lia.
  - inversion F; subst. rewrite H1. rewrite (IH w f (S p)); [f_equal; lia|apply (At_1 _ _ _ A)|assumption|exact S0|lia].
Qed.
Lemma to_stop_At stop s w p : At p (s ++ w) -> Forall (fun c => stop c = false) s -> stop (hd 0 w) = true ->
  to_stop file true stop p = Ok (p + length s)%nat.
Proof.
  intros A F S0. apply (scan_At stop s w); try assumption. apply At_len in A. rewrite app_length in A. lia.
Qed.
Lemma skip_spaces_At b w p : At p (b ++ w) -> blanks b -> hd 0 w <> 32 -> skip_spaces file true p = Ok (p + length b)%nat.
Proof.
  intros A F N. apply (to_stop_At _ b w p A).
  - eapply Forall_impl; [|exact F]. intros c ->. reflexivity.
  - cbn beta. destruct (Z.eqb_spec (hd 0 w) 32); [contradiction|reflexivity].
Qed.
Lemma do_line_ending_At t r p : At p t -> Eol t r -> exists q, do_line_ending file true p = Ok q /\ At q r /\ (p <= q)%nat.
Proof.
  intros A E. unfold do_line_ending. rewrite (At_rd _ _ A). cbn [bind]. destruct E as [r|r|]; cbn [hd].
  - exists (S p). split; [reflexivity|]. split; [apply (At_1 _ _ _ A)|lia].
  - cbn [is_le negb Z.eqb]. pose proof (At_1 _ _ _ A) as A1. change (negb (is_le 13)) with false. change (13 =? 0) with false. change (13 =? 13) with true. cbn iota.
    rewrite (At_rd _ _ A1). cbn [bind hd]. exists (S (S p)). split; [reflexivity|]. split; [apply (At_1 _ _ _ A1)|lia].
  - exists p. split; [reflexivity|]. split; [exact A|lia].
Qed.
Lemma comment_body body : Forall (fun c => c <> 0 /\ c <> 10 /\ c <> 13) body -> Forall (fun c => is_le c = false) (37 :: body).
Proof.
  intros F. constructor; [reflexivity|]. eapply Forall_impl; [|exact F]. intros c (A & B & C). unfold is_le.
  destruct (Z.eqb_spec c 13), (Z.eqb_spec c 10), (Z.eqb_spec c 0); try contradiction; reflexivity.
Qed.
Lemma comment_At w r p : At p w -> Comment w r -> exists q, goto_next_line file true p = Ok q /\ At q r /\ (p < q)%nat.
Proof.
  intros A (body & t & -> & F & E). unfold goto_next_line. change (37 :: body ++ t) with ((37 :: body) ++ t) in A.
  rewrite (to_stop_At is_le (37 :: body) t p A (comment_body _ F) (Eol_hd _ _ E)). cbn [bind].
  destruct (do_line_ending_At t r _ (At_adv _ _ _ A) E) as (q & Q1 & Q2 & Q3). exists q. split; [exact Q1|]. split; [exact Q2|]. simpl in Q3. lia.
Qed.
Lemma comments_At w r p : Comments w r -> At p w -> hd 0 r <> 37 -> exists q, skip_comments file true p = Ok q /\ At q r /\ (p <= q)%nat.
Proof.
  intros C. unfold skip_comments. assert (G : forall fuel p, At p w -> hd 0 r <> 37 -> (len - p < fuel)%nat -> exists q, skip_comments_f file true fuel p = Ok q /\ At q r /\ (p <= q)%nat).
  { clear p. induction C as [w|w w' r Cw Cr IH]; intros fuel p A N L; destruct fuel as [|f]; try lia; cbn [skip_comments_f]; rewrite (At_rd _ _ A); cbn [bind].
    - destruct (Z.eqb_spec (hd 0 w) 37); [contradiction|]. exists p. split; [reflexivity|]. split; [exact A|lia].
    - pose proof Cw as (body & t & E & _). rewrite E. cbn [hd]. change (37 =? 37) with true. cbn iota.
      destruct (comment_At w w' p A Cw) as (q & Q1 & Q2 & Q3). rewrite Q1. cbn [bind].
      destruct (IH f q Q2 N) as (q2 & R1 & R2 & R3); [destruct A, Q2; lia|]. exists q2. split; [exact R1|]. split; [exact R2|lia]. }
  intros A N. apply G; [exact A|exact N|]. destruct A. lia.
Qed.
Lemma find_nl_app s t p : Forall (fun c => c <> 10) s -> find_nl (s ++ t) p = find_nl t (p + length s).
Proof.
  revert p. induction s as [|c s IH]; intros p F; cbn [app length find_nl]; [f_equal; lia|]. inversion F; subst.
  destruct (Z.eqb_spec c 10); [contradiction|]. rewrite IH by assumption. f_equal. lia.
Qed.
Lemma goto_unchecked_At s t r p : At p (s ++ t) -> Forall (fun c => c <> 10) s -> Eol t r -> At (goto_unchecked file p) r.
Proof.
  intros A F E. unfold goto_unchecked. pose proof A as [_ A2]. rewrite A2, find_nl_app by exact F. pose proof (At_adv _ _ _ A) as B.
  destruct E as [r|r|]; cbn [find_nl].
  - change (10 =? 10) with true. cbn iota. apply (At_1 _ _ _ B).
  - change (13 =? 10) with false. cbn iota. cbn [find_nl]. change (10 =? 10) with true. cbn iota. apply (At_1 _ _ _ (At_1 _ _ _ B)).
  - split; [lia|]. unfold IO.len. apply skipn_all.
Qed.
Lemma comments_u_At w r : Comments w r -> forall fuel p, At p w -> hd 0 r <> 37 -> (len - p < fuel)%nat -> exists q, skip_comments_u file true fuel p = Ok q /\ At q r /\ (p <= q)%nat.
Proof.
  induction 1 as [w|w w' r Cw Cr IH]; intros fuel p A N L; destruct fuel as [|f]; try lia; cbn [skip_comments_u]; rewrite (At_rd _ _ A); cbn [bind].
  - destruct (Z.eqb_spec (hd 0 w) 37); [contradiction|]. exists p. split; [reflexivity|]. split; [exact A|lia].
  - destruct Cw as (body & t & E & F & Et). subst w. cbn [hd]. change (37 =? 37) with true. cbn [andb].
    pose proof (At_len _ _ A) as LA. cbn [length] in LA. rewrite (proj2 (Nat.ltb_lt p len)) by lia.
    change (37 :: body ++ t) with ((37 :: body) ++ t) in A.
    assert (G : At (goto_unchecked file p) w').
    { apply (goto_unchecked_At (37 :: body) t w' p A); [|exact Et]. constructor; [discriminate|]. eapply Forall_impl; [|exact F]. intros c (_ & X & _). exact X. }
    assert (p < goto_unchecked file p)%nat by (apply goto_unchecked_range; [apply A|lia]).
    destruct (IH f (goto_unchecked file p) G N) as (q & Q1 & Q2 & Q3); [destruct A, G; lia|]. exists q. split; [exact Q1|]. split; [exact Q2|lia].
Qed.

(** *** Numbers *)
Lemma div10 max d n : (max - d) / 10 <? n = negb (n * 10 + d <=? max).
Proof.
  destruct (Z.ltb_spec ((max - d) / 10) n) as [A|A], (Z.leb_spec (n * 10 + d) max) as [B|B]; try reflexivity; exfalso;
    pose proof (Z.div_mod (max - d) 10 ltac:(lia)); pose proof (Z.mod_pos_bound (max - d) 10 ltac:(lia)); lia.
Qed.
Lemma num_loop_At max lim t w : blanks t -> hd 0 w <> 32 -> (t = [] -> is_le (hd 0 w) = true) -> (lim <= len)%nat ->
  forall d fuel v p, Forall (fun c => 48 <= c <= 57) d -> At p (d ++ t ++ w) -> 0 <= v <= max -> (p + length d + length t <= lim)%nat -> (length d < fuel)%nat ->
  num_loop file true fuel max lim v p = if num_end v d <=? max then Ok (num_end v d, (p + length d + length t)%nat) else Err.
Proof.
  intros Bt Nw Et Hl. induction d as [|c d IH]; intros fuel v p F A Hv Hp Hf; (destruct fuel as [|f]; [simpl in Hf; lia|]); cbn [num_loop].
  - unfold num_end. cbn [fold_left app length] in *. rewrite (proj2 (Z.leb_le v max)) by lia. rewrite Nat.add_0_r in *.
    destruct (Nat.ltb_spec p lim) as [L|L].
    + rewrite (At_rd _ _ A). cbn [bind]. assert (Sp : is_sep (hd 0 (t ++ w)) = true).
      { unfold is_sep. destruct t as [|c t]; [cbn [app]; rewrite (Et eq_refl); apply orb_true_r|]. inversion Bt; subst. reflexivity. }
      rewrite Sp. rewrite (skip_spaces_At t w p A Bt Nw). reflexivity.
    + assert (length t = 0)%nat by lia. rewrite H, Nat.add_0_r. reflexivity.
  - inversion F; subst. cbn [length] in *. rewrite (proj2 (Nat.ltb_lt p lim)) by lia. rewrite (At_rd _ _ A). cbn [app hd bind].
    rewrite is_sep_digit by assumption. destruct (Z.ltb_spec c 48); [lia|]. destruct (Z.ltb_spec 57 c); [lia|]. cbn [orb].
    rewrite div10. change (num_end v (c :: d)) with (num_end (10 * v + (c - 48)) d). replace (v * 10 + (c - 48)) with (10 * v + (c - 48)) by lia.
    destruct (Z.leb_spec (10 * v + (c - 48)) max) as [C|C]; cbn [negb].
    + rewrite (IH f _ (S p)); [|assumption|apply (At_1 _ _ _ A)|lia|lia|lia]. replace (S p + length d + length t)%nat with (p + S (length d) + length t)%nat by lia. reflexivity.
    + pose proof (num_end_mono d (10 * v + (c - 48)) ltac:(lia) H2) as M. destruct (Z.leb_spec (num_end (10 * v + (c - 48)) d) max); [lia|].
      assert (Q : exists q, to_stop file true is_sep p = Ok q).
      { pose proof (to_stop_safe file is_sep p eq_refl (proj1 A)) as S1. pose proof S1 as S2.
        change ((c :: d) ++ t ++ w) with (c :: d ++ t ++ w) in A.
        assert (E : to_stop file true is_sep p = Ok (p + length (c :: d))%nat).
        { apply (to_stop_At is_sep (c :: d) (t ++ w) p A).
          - eapply Forall_impl; [|exact F]. intros x Hx. apply is_sep_digit, Hx.
          - unfold is_sep. destruct t as [|c' t]; [cbn [app]; rewrite (Et eq_refl); apply orb_true_r|]. inversion Bt; subst. reflexivity. }
        rewrite E. eexists. reflexivity. }
      destruct Q as [q ->]. reflexivity.
Qed.
Lemma read_number_At max lim b d t w p : 0 <= max -> blanks b -> digits d -> blanks t -> hd 0 w <> 32 -> (t = [] -> is_le (hd 0 w) = true) ->
  At p (b ++ d ++ t ++ w) -> (p + length b + length d + length t <= lim)%nat -> (lim <= len)%nat ->
  read_number file true max lim p = if val d <=? max then Ok (val d, (p + length b + length d + length t)%nat) else Err.
Proof.
  intros Hm Bb [Dn Df] Bt Nw Et A Hp Hl. unfold read_number. destruct d as [|c d]; [congruence|]. inversion Df; subst.
  assert (N32 : hd 0 ((c :: d) ++ t ++ w) <> 32) by (cbn; lia).
  rewrite (skip_spaces_At b _ p A Bb N32). cbn [bind]. pose proof (At_adv _ _ _ A) as A1. rewrite (At_rd _ _ A1). cbn [app hd bind].
  rewrite is_le_digit by assumption. rewrite (num_loop_At max lim t w Bt Nw Et Hl (c :: d)); [reflexivity|exact Df|exact A1|lia|lia|].
  pose proof (At_len _ _ A1) as L. rewrite app_length in L. lia.
Qed.
Definition Toks0 (vs s : list Z) : Prop := (vs = [] /\ s = []) \/ Toks vs s.
(** Reading one number of a line. *)
Lemma read_tok max lim b v vs s w p : 0 <= max -> blanks b -> Toks (v :: vs) s -> is_le (hd 0 w) = true ->
  At p (b ++ s ++ w) -> (p + length b + length s <= lim)%nat -> (lim <= len)%nat ->
  exists s' q, read_number file true max lim p = (if v <=? max then Ok (v, q) else Err) /\ 0 <= v /\ At q (s' ++ w) /\ Toks0 vs s' /\
    (q + length s' = p + length b + length s)%nat /\ (length s' < length s)%nat.
Proof.
  intros Hm Bb T Ew A Hp Hl. assert (N32 : hd 0 w <> 32) by (intros E; rewrite E in Ew; discriminate).
  inversion T as [d t D Bt E1 E2|d t vs' s' D Bt Nt T' E1 E2]; subst.
  - exists [], (p + length b + length d + length t)%nat. rewrite <- app_assoc in A. rewrite app_length in Hp.
    split; [apply (read_number_At max lim b d t w p); try assumption; [intros _; exact Ew|lia]|]. split; [apply val_nonneg, D|].
    assert (A2 : At (p + length b + length d + length t) w) by (apply At_adv, At_adv, At_adv, A).
    split; [exact A2|]. split; [left; auto|]. destruct D as [Dn _]. destruct d; [congruence|]. rewrite app_length. cbn [length]. lia.
  - exists s', (p + length b + length d + length t)%nat. rewrite <- !app_assoc in A. rewrite !app_length in Hp.
    destruct (Toks_hd _ _ T') as (c & s2 & Es & Hc). split.
    + apply (read_number_At max lim b d t (s' ++ w) p); try assumption; [rewrite Es; cbn; lia|congruence|lia].
    + split; [apply val_nonneg, D|]. split; [apply At_adv, At_adv, At_adv, A|]. split; [right; exact T'|]. destruct D as [Dn _]. destruct d; [congruence|].
      rewrite !app_length. cbn [length]. lia.
Qed.
End Read.

(** C32: a number in the file is read as its value exactly if it fits the target type, otherwise an exception is raised. *)
Theorem C32_read_number file max p b d t w :
  0 <= max -> blanks b -> digits d -> blanks t ->
  (w = [] \/ exists c r, w = c :: r /\ (c = 10 \/ c = 13 \/ (t <> [] /\ c <> 32))) ->
  file = firstn p file ++ b ++ d ++ t ++ w -> (p <= length file)%nat ->
  (val d <= max -> exists q, read_number file true max (length file) p = Ok (val d, q) /\ skipn q file = w) /\
  (max < val d -> read_number file true max (length file) p = Err).
Proof.
  intros Hm Bb D Bt W E Hp. assert (A : At file p (b ++ d ++ t ++ w)).
  { split; [exact Hp|]. rewrite E at 1. rewrite skipn_app, skipn_all2 by (rewrite firstn_length; lia). rewrite firstn_length.
    replace (p - Nat.min p (length file))%nat with 0%nat by lia. reflexivity. }
  pose proof (At_len _ _ _ A) as L. rewrite !app_length in L. unfold IO.len in L.
  assert (R : read_number file true max (length file) p = if val d <=? max then Ok (val d, (p + length b + length d + length t)%nat) else Err).
  { apply (read_number_At file max (length file) b d t w p); try assumption; unfold IO.len; try lia.
    - destruct W as [->|(c & r & -> & C)]; cbn; [lia|]. destruct C as [->|[->|[_ C]]]; try lia.
    - intros ->. destruct W as [->|(c & r & -> & C)]; [reflexivity|]. destruct C as [->|[->|[C _]]]; [reflexivity|reflexivity|congruence]. }
  rewrite R. split; intros V.
  - rewrite (proj2 (Z.leb_le _ _) V). eexists. split; [reflexivity|]. apply (At_adv file (p + length b + length d) t w), (At_adv file (p + length b) d), (At_adv file p b), A.
  - destruct (Z.leb_spec (val d) max); [lia|reflexivity].
Qed.
