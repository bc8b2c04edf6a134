(** IOSafe.v - C34: the reader accesses only mapped bytes. *)
From Verif Require Import Base Construct IO.

Definition safe {A} (r : res A) (Q : A -> Prop) : Prop := match r with Ok a => Q a | Err => True | Fault => False end.
Lemma safe_bind {A B} (r : res A) (f : A -> res B) Q R : safe r Q -> (forall a, Q a -> safe (f a) R) -> safe (bind r f) R.
Proof. destruct r; simpl; auto. Qed.
Lemma safe_weak {A} (r : res A) (Q R : A -> Prop) : safe r Q -> (forall a, Q a -> R a) -> safe r R.
Proof. destruct r; simpl; auto. Qed.
Lemma safe_par {A} (l : list (res A)) : (forall r, In r l -> safe r (fun _ => True)) -> safe (par_all l) (fun _ => True).
Proof.
  induction l as [|r l IH]; intros F; simpl; [exact I|]. specialize (IH (fun r' Hr' => F r' (or_intror Hr'))).
  specialize (F r (or_introl eq_refl)). destruct r, (par_all l); simpl in *; auto.
Qed.

Section Safe.
Variable file : list Z.
Notation len := (len file).
Notation rd := (rd file true).

Lemma rd_ok p : (p <= len)%nat -> rd p = Ok (hd 0 (skipn p file)).
Proof.
  intros Hp. unfold IO.rd, IO.len in *. destruct (Nat.ltb_spec p (length file)) as [C|C].
  - f_equal. clear Hp. revert p C. induction file as [|c f IH]; intros p C; [simpl in C; lia|]. destruct p; [reflexivity|]. simpl. apply IH. simpl in C. lia.
  - replace p with (length file) by lia. rewrite Nat.eqb_refl, skipn_all. reflexivity.
Qed.
Lemma rd_lt p c : (p <= len)%nat -> rd p = Ok c -> c <> 0 -> (p < len)%nat.
Proof.
  intros Hp E N. unfold IO.rd in E. destruct (Nat.ltb_spec p len); [assumption|]. destruct ((p =? len)%nat && true); [|discriminate]. congruence.
Qed.
Lemma safe_rd p : (p <= len)%nat -> safe (rd p) (fun c => rd p = Ok c).
Proof. intros Hp. rewrite rd_ok by exact Hp. reflexivity. Qed.

Lemma scan_safe stop : stop 0 = true -> forall fuel p, (p <= len)%nat -> (len - p <= fuel)%nat ->
  safe (scan file true fuel stop p) (fun q => (p <= q <= len)%nat /\ (forall c, rd p = Ok c -> stop c = false -> (p < q)%nat) /\ exists c, rd q = Ok c /\ stop c = true).
Proof.
  intros S0. induction fuel as [|f IH]; intros p Hp Hf; cbn [scan]; (eapply safe_bind; [apply safe_rd, Hp|]); intros c Ec; destruct (stop c) eqn:Es.
  - simpl. split; [lia|]. split; [intros c' E' F'; congruence|exists c; split; [exact Ec|exact Es]].
  - assert (p < len)%nat; [|lia]. apply (rd_lt p c Hp Ec). congruence.
  - simpl. split; [lia|]. split; [intros c' E' F'; congruence|exists c; split; [exact Ec|exact Es]].
  - assert (L : (p < len)%nat) by (apply (rd_lt p c Hp Ec); congruence).
    eapply safe_weak; [apply IH; lia|]. intros q (Hq & _ & X). simpl in *. split; [lia|]. split; [intros; lia|exact X].
Qed.
Lemma to_stop_safe stop p : stop 0 = true -> (p <= len)%nat ->
  safe (to_stop file true stop p) (fun q => (p <= q <= len)%nat /\ (forall c, rd p = Ok c -> stop c = false -> (p < q)%nat) /\ exists c, rd q = Ok c /\ stop c = true).
Proof. intros S0 Hp. apply scan_safe; [exact S0|exact Hp|lia]. Qed.
Lemma do_line_ending_safe p : (p <= len)%nat -> safe (do_line_ending file true p) (fun q => (p <= q <= len)%nat).
Proof.
  intros Hp. unfold do_line_ending. eapply safe_bind; [apply safe_rd, Hp|]. intros c Ec.
  destruct (negb (is_le c)); [exact I|]. destruct (Z.eqb_spec c 0) as [->|N]; [simpl; lia|].
  pose proof (rd_lt p c Hp Ec N) as L. destruct (c =? 13); [|simpl; lia].
  eapply safe_bind; [apply safe_rd; lia|]. intros c2 E2. destruct (Z.eqb_spec c2 10) as [->|]; [|exact I].
  pose proof (rd_lt (S p) 10 L E2 ltac:(lia)). simpl. lia.
Qed.
Lemma goto_next_line_safe p : (p <= len)%nat ->
  safe (goto_next_line file true p) (fun q => (p <= q <= len)%nat /\ forall c, rd p = Ok c -> is_le c = false -> (p < q)%nat).
Proof.
  intros Hp. unfold goto_next_line. eapply safe_bind; [apply to_stop_safe; [reflexivity|exact Hp]|]. intros q (Hq & Pq & _).
  eapply safe_weak; [apply do_line_ending_safe; lia|]. intros q2 Hq2. simpl in *. split; [lia|]. intros c Ec Es. specialize (Pq c Ec Es). lia.
Qed.
Lemma skip_comments_safe p : (p <= len)%nat -> safe (skip_comments file true p) (fun q => (p <= q <= len)%nat).
Proof.
  unfold skip_comments. assert (G : forall fuel p, (p <= len)%nat -> (len - p < fuel)%nat -> safe (skip_comments_f file true fuel p) (fun q => (p <= q <= len)%nat)).
  { clear p. induction fuel as [|f IH]; intros p Hp Hf; [lia|]. cbn [skip_comments_f]. eapply safe_bind; [apply safe_rd, Hp|]. intros c Ec.
    destruct (Z.eqb_spec c 37) as [->|N]; [|simpl; lia]. eapply safe_bind; [apply goto_next_line_safe, Hp|]. intros q [Hq Pq].
    specialize (Pq 37 Ec eq_refl). eapply safe_weak; [apply IH; lia|]. intros a Ha. simpl in *. lia. }
  intros Hp. apply G; lia.
Qed.
Lemma find_nl_range l : forall p q, find_nl l p = Some q -> (p <= q < p + length l)%nat.
Proof.
  induction l as [|c l IH]; intros p q E; simpl in E; [discriminate|]. destruct (c =? 10); [injection E as <-; simpl; lia|].
  apply IH in E. simpl. lia.
Qed.
Lemma goto_unchecked_range p : (p <= len)%nat -> (p <= goto_unchecked file p <= len)%nat /\ ((p < len)%nat -> (p < goto_unchecked file p)%nat).
Proof.
  intros Hp. unfold goto_unchecked. destruct (find_nl (skipn p file) p) as [q|] eqn:E; [|lia].
  apply find_nl_range in E. rewrite skipn_length in E. unfold IO.len in *. lia.
Qed.
Lemma skip_comments_u_safe : forall fuel p, (p <= len)%nat -> (len - p < fuel)%nat -> safe (skip_comments_u file true fuel p) (fun q => (p <= q <= len)%nat).
Proof.
  induction fuel as [|f IH]; intros p Hp Hf; [lia|]. cbn [skip_comments_u]. eapply safe_bind; [apply safe_rd, Hp|]. intros c Ec.
  destruct (c =? 37); [|simpl; lia]. cbn [andb]. destruct (Nat.ltb_spec p len) as [L|L]; [|simpl; lia].
  destruct (goto_unchecked_range p Hp) as [A B]. specialize (B L). eapply safe_weak; [apply IH; lia|]. intros a Ha. simpl in *. lia.
Qed.
Lemma skip_spaces_safe p : (p <= len)%nat -> safe (skip_spaces file true p) (fun q => (p <= q <= len)%nat).
Proof. intros Hp. eapply safe_weak; [apply to_stop_safe; [reflexivity|exact Hp]|]. intros a [A _]. exact A. Qed.

Lemma num_loop_safe max lim : (lim <= len)%nat -> forall fuel number p, (p <= len)%nat -> (lim - p < fuel)%nat ->
  safe (num_loop file true fuel max lim number p) (fun r => (p <= snd r <= len)%nat /\ (fst r = number \/ (p < snd r)%nat)).
Proof.
  intros Hl. induction fuel as [|f IH]; intros number p Hp Hf; [lia|]. cbn [num_loop]. destruct (Nat.ltb_spec p lim) as [L|L]; [|simpl; split; [lia|auto]].
  eapply safe_bind; [apply safe_rd, Hp|]. intros c Ec. destruct (is_sep c).
  - eapply safe_bind; [apply skip_spaces_safe, Hp|]. intros q Hq. simpl in *. split; [lia|auto].
  - destruct ((c <? 48) || (57 <? c)); [exact I|]. destruct (_ <? number).
    + eapply safe_bind; [apply to_stop_safe; [reflexivity|exact Hp]|]. intros; exact I.
    + eapply safe_weak; [apply IH; lia|]. intros [v q] [A B]. simpl in *. split; [lia|]. right. lia.
Qed.
Lemma read_number_safe max lim p : (p <= len)%nat -> (lim <= len)%nat ->
  safe (read_number file true max lim p) (fun r => (p <= snd r <= len)%nat /\ (fst r <> 0 -> (p < snd r)%nat) /\ (lim = len -> (p < snd r)%nat)).
Proof.
  intros Hp Hl. unfold read_number. eapply safe_bind; [apply (to_stop_safe (fun c => negb (c =? 32))); [reflexivity|exact Hp]|].
  intros q (Hq & _ & (c & Ec & Sc)). rewrite Ec. cbn [bind]. destruct (is_le c) eqn:El; [exact I|].
  assert (Lq : (q < len)%nat) by (apply (rd_lt q c ltac:(lia) Ec); intros ->; discriminate).
  assert (Es : is_sep c = false) by (unfold is_sep; rewrite El, orb_false_r; apply negb_true_iff, Sc).
  pose proof (num_loop_safe max lim Hl (S len) 0 q ltac:(lia) ltac:(lia)) as N.
  assert (N2 : lim = len -> safe (num_loop file true (S len) max lim 0 q) (fun r => (q < snd r)%nat)).
  { intros ->. cbn [num_loop]. rewrite (proj2 (Nat.ltb_lt _ _) Lq), Ec. cbn [bind]. rewrite Es. destruct ((c <? 48) || (57 <? c)); [exact I|].
    destruct (_ <? 0). - eapply safe_bind; [apply to_stop_safe; [reflexivity|lia]|]. intros; exact I.
    - eapply safe_weak; [apply num_loop_safe; lia|]. intros [v r] [A _]. simpl in *. lia. }
  destruct (num_loop file true (S len) max lim 0 q) as [[v r]| |]; [|exact I|exact N]. simpl in *. split; [lia|]. split; [lia|]. intros E.
  specialize (N2 E). lia.
Qed.

Lemma read_format_safe p : (p <= len)%nat -> safe (read_format file true p) (fun r => (p <= snd r <= len)%nat).
Proof.
  intros Hp. unfold read_format. eapply safe_bind; [apply safe_rd, Hp|]. intros c _. destruct (is_le c); [simpl; lia|].
  eapply safe_bind; [apply read_number_safe; [exact Hp|lia]|]. intros [f q] [A _]. simpl in A. destruct (100 <=? f); [exact I|].
  destruct (_ && _); [simpl; lia|exact I].
Qed.
Lemma read_header_safe : safe (read_header file true) (fun r => (1 <= snd r <= len)%nat).
Proof.
  unfold read_header. eapply safe_bind; [apply skip_comments_safe; lia|]. intros p Hp. simpl in Hp.
  eapply safe_bind; [apply read_number_safe; lia|]. intros [a p1] (A1 & _ & B1). simpl in A1, B1. specialize (B1 eq_refl).
  eapply safe_bind; [apply read_number_safe; lia|]. intros [b p2] (A2 & _). simpl in A2.
  eapply safe_bind; [apply read_format_safe; lia|]. intros [[we wv] p3] A3. simpl in A3.
  eapply safe_bind; [apply do_line_ending_safe; lia|]. intros p4 A4. simpl in *. lia.
Qed.

(** split_lines: the line positions *)
Definition ascending (P : list nat) : Prop := forall i j, (i <= j < length P)%nat -> (nth i P 0 <= nth j P 0)%nat.
Lemma ascending_snoc P q : ascending P -> (forall x, In x P -> (x <= q)%nat) -> ascending (P ++ [q]).
Proof.
  intros A L i j Hij. rewrite app_length in Hij. simpl in Hij. destruct (Nat.eq_dec j (length P)) as [->|D].
  - rewrite (app_nth2 P [q] 0%nat (n := length P)) by lia. rewrite Nat.sub_diag. simpl.
    destruct (Nat.eq_dec i (length P)) as [->|]; [rewrite app_nth2 by lia; rewrite Nat.sub_diag; simpl; lia|]. rewrite app_nth1 by lia. apply L, nth_In. lia.
  - rewrite !app_nth1 by lia. apply A. lia.
Qed.
Lemma split_loop_safe : forall k p acc, (p <= len)%nat -> ascending acc -> (forall x, In x acc -> (x <= p)%nat) ->
  safe (split_loop file true k p acc) (fun r => (p <= snd r <= len)%nat /\ ascending (fst r) /\ (forall x, In x (fst r) -> (x <= snd r)%nat) /\
    exists l, fst r = acc ++ l).
Proof.
  induction k as [|k IH]; intros p acc Hp A L; cbn [split_loop]; (eapply safe_bind; [apply skip_comments_u_safe; [exact Hp|lia]|]); intros p1 Hp1; simpl in Hp1.
  - simpl. split; [lia|]. split; [exact A|]. split; [intros x Hx; specialize (L x Hx); lia|exists []; rewrite app_nil_r; reflexivity].
  - destruct (Nat.leb_spec len p1) as [C|C].
    + simpl. split; [lia|]. split; [exact A|]. split; [intros x Hx; specialize (L x Hx); lia|exists []; rewrite app_nil_r; reflexivity].
    + destruct (goto_unchecked_range p1 ltac:(lia)) as [G1 G2]. set (q := goto_unchecked file p1) in *.
      assert (LQ : forall x, In x (acc ++ [q]) -> (x <= q)%nat).
      { intros x Hx. apply in_app_or in Hx. destruct Hx as [Hx|[<-|[]]]; [specialize (L x Hx); lia|lia]. }
      eapply safe_weak; [apply IH; [lia| |exact LQ]|].
      * apply ascending_snoc; [exact A|]. intros x Hx. specialize (L x Hx). lia.
      * intros [P r] (B1 & B2 & B3 & (l & B4)). simpl in *. split; [lia|]. split; [exact B2|]. split; [exact B3|].
        exists (q :: l). rewrite B4, <- app_assoc. reflexivity.
Qed.
Lemma advance_range P b : forall fuel s i, (S i < length P)%nat -> (i < advance P b fuel s i < length P)%nat.
Proof.
  induction fuel as [|f IH]; intros s i Hi; cbn [advance]; [lia|]. destruct ((S (S i) <? length P)%nat && _) eqn:E; [|lia].
  apply andb_true_iff in E. destruct E as [E _]. apply Nat.ltb_lt in E. specialize (IH s (S i) E). lia.
Qed.
Lemma advance_stop P b : forall fuel s i, (length P <= fuel + i)%nat -> (S i < length P)%nat ->
  let j := advance P b fuel s i in (S j >= length P)%nat \/ (b <= pos_ P j - pos_ P s)%nat.
Proof.
  induction fuel as [|f IH]; intros s i Hf Hi; cbn [advance]; [lia|]. destruct ((S (S i) <? length P)%nat && _) eqn:E.
  - apply andb_true_iff in E. destruct E as [E _]. apply Nat.ltb_lt in E. apply IH; lia.
  - apply andb_false_iff in E. destruct E as [E|E]; [apply Nat.ltb_ge in E; left; lia|apply Nat.ltb_ge in E; right; lia].
Qed.
Lemma ranges_bounds P b : ascending P -> forall fuel i r, In r (ranges P b fuel i) -> exists a c, (a < length P)%nat /\ (c < length P)%nat /\ r_start r = nth a P 0%nat /\ r_end r = nth c P 0%nat.
Proof.
  intros A. induction fuel as [|f IH]; intros i r Hr; cbn [ranges] in Hr; [destruct Hr|]. destruct (Nat.ltb_spec (S i) (length P)) as [C|C]; [|destruct Hr].
  pose proof (advance_range P b (length P) i i C) as J. apply in_app_or in Hr. destruct Hr as [Hr|Hr]; [|apply (IH _ _ Hr)].
  destruct (0 <? _)%nat; [|destruct Hr]. destruct Hr as [<-|[]]. simpl. exists i, (advance P b (length P) i i). repeat split; lia.
Qed.
Lemma ranges_count P b : (1 <= b)%nat -> ascending P -> forall fuel i, (i < length P)%nat ->
  ((length (ranges P b fuel i) - 1) * b <= nth (length P - 1) P 0 - nth i P 0)%nat.
Proof.
  intros Hb A. induction fuel as [|f IH]; intros i Hi; cbn [ranges]; [simpl; lia|]. destruct (Nat.ltb_spec (S i) (length P)) as [C|C]; [|simpl; lia].
  pose proof (advance_range P b (length P) i i C) as J. pose proof (advance_stop P b (length P) i i ltac:(lia) C) as S1. cbv zeta in S1.
  set (j := advance P b (length P) i i) in *. rewrite app_length.
  pose proof (A i j ltac:(lia)) as M1. pose proof (A j (length P - 1)%nat ltac:(lia)) as M2.
  destruct S1 as [S1|S1].
  - assert (E : ranges P b f j = []). { destruct f; [reflexivity|]. cbn [ranges]. destruct (Nat.ltb_spec (S j) (length P)); [lia|reflexivity]. }
    rewrite E. cbn [length]. destruct (0 <? _)%nat; cbn [length]; lia.
  - specialize (IH j ltac:(lia)). unfold pos_ in S1. set (L := length (ranges P b f j)) in *.
    assert (X : (length (if (0 <? pos_ P j - pos_ P i)%nat then [mkR (pos_ P i) (pos_ P j) i (j - i)] else []) <= 1)%nat) by (destruct (0 <? _)%nat; cbn [length]; lia).
    match type of X with (?z <= 1)%nat => set (y := z) in * end.
    destruct L as [|L]; [replace (y + 0 - 1)%nat with 0%nat by lia; lia|].
    assert ((y + S L - 1) * b <= (S L - 1) * b + b)%nat by nia. lia.
Qed.
Lemma split_lines_safe nr p0 m : (1 <= nr)%nat -> (1 <= p0 <= len)%nat ->
  safe (split_lines file true nr p0 m) (fun r => (p0 <= snd r <= len)%nat /\ (length (fst r) <= nr)%nat /\
    forall x, In x (fst r) -> (r_start x <= len)%nat /\ (r_end x <= len)%nat).
Proof.
  intros Hnr Hp. unfold split_lines. eapply safe_bind.
  - apply split_loop_safe; [lia| |].
    + intros i j Hij. simpl in Hij. replace i with 0%nat by lia. replace j with 0%nat by lia. lia.
    + intros x [<-|[]]. lia.
  - intros [P p] (B1 & B2 & B3 & (l & B4)). cbn [fst snd] in *.
    eapply (safe_bind _ _ (fun P' => ascending P' /\ (forall x, In x P' -> (x <= p)%nat) /\ exists l', P' = p0 :: l')).
    + destruct (length P <? S m)%nat.
      * destruct (Nat.eqb_spec p 0); [lia|]. eapply safe_bind; [apply safe_rd; lia|]. intros c _.
        destruct (c =? 10); simpl.
        -- split; [apply ascending_snoc; assumption|]. split; [|exists (l ++ [p]); rewrite B4; reflexivity].
           intros x Hx. apply in_app_or in Hx. destruct Hx as [Hx|[<-|[]]]; [apply B3, Hx|lia].
        -- split; [exact B2|]. split; [exact B3|]. exists l. rewrite B4. reflexivity.
      * simpl. split; [exact B2|]. split; [exact B3|]. exists l. rewrite B4. reflexivity.
    + intros P' (A' & L' & (l' & E')). destruct (length P' <? S m)%nat; [exact I|]. cbn [safe fst snd]. split; [lia|]. split.
      * set (b := ((p - p0) / nr + 1)%nat). assert (HL : (0 < length P')%nat) by (rewrite E'; simpl; lia).
        pose proof (ranges_count P' b ltac:(unfold b; lia) A' (length P') 0 HL) as C.
        assert (N0 : nth 0 P' 0%nat = p0) by (rewrite E'; reflexivity). rewrite N0 in C.
        assert (NL : (nth (length P' - 1) P' 0 <= p)%nat) by (apply L', nth_In; lia).
        assert (D : (p - p0 < nr * b)%nat).
        { unfold b. pose proof (Nat.div_mod (p - p0) nr ltac:(lia)). pose proof (Nat.mod_upper_bound (p - p0) nr ltac:(lia)). nia. }
        destruct (le_lt_dec (length (ranges P' b (length P') 0)) nr) as [G|G]; [exact G|]. exfalso. nia.
      * intros x Hx. destruct (ranges_bounds P' _ A' _ _ _ Hx) as (a & c & Ha & Hc & -> & ->).
        split; (eapply Nat.le_trans; [apply L', nth_In; assumption|lia]).
Qed.

Section RowsSafe.
Context {A : Type}.
Variable row : nat -> nat -> nat -> res (A * nat).
Hypothesis Hrow : forall lim idx p, (lim <= len)%nat -> (p <= len)%nat -> safe (row lim idx p) (fun r => (snd r <= len)%nat).
Lemma read_rows_safe : forall cnt lim idx p, (lim <= len)%nat -> (p <= len)%nat -> safe (read_rows file true row cnt lim idx p) (fun r => (snd r <= len)%nat).
Proof.
  induction cnt as [|c IH]; intros lim idx p Hl Hp; cbn [read_rows]; [exact Hp|].
  eapply safe_bind; [apply skip_comments_safe, Hp|]. intros p1 H1. eapply safe_bind; [apply Hrow; [exact Hl|apply H1]|]. intros [a p2] H2. simpl in H2.
  eapply safe_bind; [apply IH; [exact Hl|exact H2]|]. intros [l p3] H3. exact H3.
Qed.
Lemma read_ranges_safe nr rs : (length rs <= nr)%nat -> (forall x, In x rs -> (r_start x <= len)%nat /\ (r_end x <= len)%nat) ->
  safe (read_ranges file true row nr rs) (fun _ => True).
Proof.
  intros L R. unfold read_ranges. rewrite (proj2 (Nat.leb_le _ _) L). apply safe_par. intros r Hr. apply in_map_iff in Hr.
  destruct Hr as (x & <- & Hx). destruct (R x Hx) as [R1 R2]. eapply safe_bind; [apply read_rows_safe; assumption|]. intros [l q] _. exact I.
Qed.
End RowsSafe.

Lemma hgr_pins_safe n lim : (lim <= len)%nat -> forall fuel p, (p <= len)%nat -> (len - p < fuel)%nat ->
  safe (hgr_pins file true fuel n lim p) (fun r => (snd r <= len)%nat).
Proof.
  intros Hl. induction fuel as [|f IH]; intros p Hp Hf; [lia|]. cbn [hgr_pins]. eapply safe_bind; [apply safe_rd, Hp|]. intros c _.
  destruct (is_le c); [exact Hp|]. eapply safe_bind; [apply read_number_safe; assumption|]. intros [x q] (A & B & _). simpl in A, B.
  destruct (Z.eqb_spec x 0) as [->|N]; [exact I|]. specialize (B N). destruct (n <? x); [exact I|].
  eapply safe_bind; [apply IH; lia|]. intros [l q2] H2. exact H2.
Qed.
Lemma hgr_row_safe hasw n lim idx p : (lim <= len)%nat -> (p <= len)%nat -> safe (hgr_row file true hasw n lim idx p) (fun r => (snd r <= len)%nat).
Proof.
  intros Hl Hp. unfold hgr_row. eapply (safe_bind _ _ (fun r => (snd r <= len)%nat)).
  { destruct hasw; [|exact Hp]. eapply safe_weak; [apply read_number_safe; assumption|]. intros [x q] (A & _). simpl in *. lia. }
  intros [w p1] H1. simpl in H1. eapply safe_bind; [apply hgr_pins_safe; [exact Hl|exact H1|lia]|]. intros [pins p2] H2. simpl in H2.
  eapply safe_bind; [apply do_line_ending_safe, H2|]. intros p3 H3. simpl in H3. destruct pins; [exact I|]. simpl. lia.
Qed.
Lemma read_weights_safe : forall cnt p, (p <= len)%nat -> safe (read_weights file true cnt p) (fun r => (snd r <= len)%nat).
Proof.
  induction cnt as [|c IH]; intros p Hp; cbn [read_weights]; [exact Hp|]. destruct (Nat.leb_spec len p); [exact I|].
  eapply safe_bind; [apply read_number_safe; [exact Hp|lia]|]. intros [w p1] (A1 & _). simpl in A1.
  eapply safe_bind; [apply do_line_ending_safe; lia|]. intros p2 H2. simpl in H2.
  eapply safe_bind; [apply IH; lia|]. intros [l p3] H3. exact H3.
Qed.
Lemma read_hgr_safe nr rm : (1 <= nr)%nat -> read_hgr file true nr rm <> Fault.
Proof.
  intros Hnr. enough (S1 : safe (read_hgr file true nr rm) (fun _ => True)) by (intros E; rewrite E in S1; exact S1).
  unfold read_hgr. destruct (len =? 0)%nat; [exact I|]. eapply safe_bind; [apply read_header_safe|]. intros [[[[m n] we] wv] p] Hp. simpl in Hp.
  eapply safe_bind; [apply split_lines_safe; [exact Hnr|lia]|]. intros [rs p1] (A1 & A2 & A3). cbn [fst snd] in *.
  eapply safe_bind; [apply (read_ranges_safe (hgr_row file true we n)); [intros; apply hgr_row_safe; assumption|exact A2|exact A3]|]. intros ls _.
  eapply (safe_bind _ _ (fun r => (snd r <= len)%nat)).
  { destruct wv; [|simpl; lia]. eapply safe_bind; [apply read_weights_safe; lia|]. intros [l q] Hq. exact Hq. }
  intros [nws p2] H2. simpl in H2. eapply safe_bind; [apply skip_comments_safe, H2|]. intros p3 _. destruct (p3 =? len)%nat; exact I.
Qed.
Lemma metis_targets_safe n hasw u lim : (lim <= len)%nat -> forall fuel p, (p <= len)%nat -> (len - p < fuel)%nat ->
  safe (metis_targets file true fuel n hasw u lim p) (fun r => (snd r <= len)%nat).
Proof.
  intros Hl. induction fuel as [|f IH]; intros p Hp Hf; [lia|]. cbn [metis_targets]. eapply safe_bind; [apply safe_rd, Hp|]. intros c _.
  destruct (is_le c); [exact Hp|]. eapply safe_bind; [apply read_number_safe; assumption|]. intros [x q] (A & B & _). simpl in A, B.
  destruct (Z.eqb_spec x 0) as [->|N]; [exact I|]. specialize (B N). destruct (n <? x); [exact I|].
  eapply (safe_bind _ _ (fun r => (q <= snd r <= len)%nat)).
  { destruct hasw; [|simpl; lia]. eapply safe_weak; [apply read_number_safe; [lia|assumption]|]. intros [w q2] (A2 & _). exact A2. }
  intros [w q2] H2. simpl in H2. eapply safe_bind; [apply IH; lia|]. intros [l q3] H3. simpl in *. exact H3.
Qed.
Lemma metis_row_safe we wv n lim u p : (lim <= len)%nat -> (p <= len)%nat -> safe (metis_row file true we wv n lim u p) (fun r => (snd r <= len)%nat).
Proof.
  intros Hl Hp. unfold metis_row. eapply (safe_bind _ _ (fun r => (snd r <= len)%nat)).
  { destruct wv; [|exact Hp]. eapply safe_weak; [apply read_number_safe; assumption|]. intros [x q] (A & _). simpl in *. lia. }
  intros [w p1] H1. simpl in H1. eapply safe_bind; [apply metis_targets_safe; [exact Hl|exact H1|lia]|]. intros [l p2] H2. simpl in H2.
  eapply safe_bind; [apply do_line_ending_safe, H2|]. intros p3 H3. simpl in *. lia.
Qed.
Lemma read_metis_safe nr : (1 <= nr)%nat -> read_metis file true nr <> Fault.
Proof.
  intros Hnr. enough (S1 : safe (read_metis file true nr) (fun _ => True)) by (intros E; rewrite E in S1; exact S1).
  unfold read_metis. destruct (len =? 0)%nat; [exact I|]. eapply safe_bind; [apply read_header_safe|]. intros [[[[n m] we] wv] p] Hp. simpl in Hp.
  eapply safe_bind; [apply split_lines_safe; [exact Hnr|lia]|]. intros [rs p1] (A1 & A2 & A3). cbn [fst snd] in *.
  eapply safe_bind; [apply (read_ranges_safe (metis_row file true we wv n)); [intros; apply metis_row_safe; assumption|exact A2|exact A3]|]. intros ls _.
  cbv zeta. destruct (_ =? m); [|exact I]. eapply safe_bind; [apply skip_comments_safe; lia|]. intros p3 _. destruct (p3 =? len)%nat; exact I.
Qed.
End Safe.

(** C34: if the byte behind the file is mapped (file size not a multiple of the page size), neither reader ever accesses an
    unmapped byte or a non-existing range buffer, for every content of the file and every number of ranges. *)
Theorem C34_no_access_outside_file file nr rm : (1 <= nr)%nat ->
  read_hgr file true nr rm <> Fault /\ read_metis file true nr <> Fault.
Proof. intros Hnr. split; [apply read_hgr_safe, Hnr|apply read_metis_safe, Hnr]. Qed.

(** Finding: if the file size is a multiple of the page size, no file can be read without an access behind the mapping:
    the check for trailing comments reads mapped_file[length] (hypergraph_io.cpp:266, :442) before a result is returned. *)
Lemma skip_comments_end file fuel p : skip_comments_f file false fuel p <> Ok (len file).
Proof.
  revert p. induction fuel as [|f IH]; intros p; cbn [skip_comments_f]; unfold IO.rd at 1;
    destruct (Nat.ltb_spec p (len file)) as [C|C]; try (rewrite andb_false_r; discriminate); cbn [bind]; destruct (nth p file 0 =? 37); try discriminate.
  - intros E. injection E as E. lia.
  - destruct (goto_next_line file false p); cbn [bind]; try discriminate. apply IH.
  - intros E. injection E as E. lia.
Qed.
Theorem C34_refuted_page_multiple file nr rm :
  (forall r, read_hgr file false nr rm <> Ok r) /\ (forall r, read_metis file false nr <> Ok r).
Proof.
  split; intros r; [unfold read_hgr|unfold read_metis]; (destruct (len file =? 0)%nat; [discriminate|]).
  - destruct (read_header file false) as [[[[[m n] we] wv] p]| |]; cbn [bind]; try discriminate.
    destruct (split_lines file false nr p (Z.to_nat m)) as [[rs p1]| |]; cbn [bind]; try discriminate.
    destruct (read_ranges _ _ _ _ _) as [ls| |]; cbn [bind]; try discriminate.
    destruct (if wv then _ else _) as [[nws p2]| |]; cbn [bind]; try discriminate.
    unfold skip_comments. destruct (skip_comments_f file false (S (len file) - p2) p2) as [p3| |] eqn:E; cbn [bind]; try discriminate.
    destruct (Nat.eqb_spec p3 (len file)) as [->|]; [|discriminate]. exfalso. apply (skip_comments_end _ _ _ E).
  - destruct (read_header file false) as [[[[[n m] we] wv] p]| |]; cbn [bind]; try discriminate.
    destruct (split_lines file false nr p (Z.to_nat n)) as [[rs p1]| |]; cbn [bind]; try discriminate.
    destruct (read_ranges _ _ _ _ _) as [ls| |]; cbn [bind]; try discriminate. cbv zeta. destruct (_ =? m); [|discriminate].
    unfold skip_comments. destruct (skip_comments_f file false (S (len file) - p1) p1) as [p3| |] eqn:E; cbn [bind]; try discriminate.
    destruct (Nat.eqb_spec p3 (len file)) as [->|]; [|discriminate]. exfalso. apply (skip_comments_end _ _ _ E).
Qed.
