(** IO.v - reading input files: mt-kahypar/io/io_utils.h:163-345 and mt-kahypar/io/hypergraph_io.cpp:47-452.

    The file is a list of bytes; [pad] says whether the byte behind the file is mapped (and then zero), i.e. whether the file
    length is not a multiple of the page size (mmap, io_utils.h:88-143).  Outcomes: a value, an exception (InvalidInputException
    or SystemException), or an access outside the mapping.  Line numbers (used for messages only) are omitted. *)
From Verif Require Import Base Construct.

Inductive res (A : Type) := Ok (a : A) | Err | Fault.
Arguments Ok {A}. Arguments Err {A}. Arguments Fault {A}.
Definition bind {A B} (r : res A) (f : A -> res B) : res B := match r with Ok a => f a | Err => Err | Fault => Fault end.
Notation "x <- e ;; f" := (bind e (fun x => f)) (at level 60, e at next level, right associativity).
Notation "' x <- e ;; f" := (bind e (fun x => f)) (at level 60, x strict pattern, e at next level, right associativity).
(** Independent tasks running in parallel: an access fault anywhere, else an exception anywhere, else all results. *)
Fixpoint par_all {A} (l : list (res A)) : res (list A) :=
  match l with
  | [] => Ok []
  | r :: l' => match r, par_all l' with
               | Fault, _ | _, Fault => Fault
               | Err, _ | _, Err => Err
               | Ok a, Ok b => Ok (a :: b)
               end
  end.

(** std::numeric_limits<...>::max() of HypernodeID/HyperedgeID/uint32_t and of the 32-bit signed weights *)
Definition MAXID : Z := 2 ^ 32 - 1.
Definition MAXW : Z := 2 ^ 31 - 1.

Section Reader.
Variables (file : list Z) (pad : bool).
Definition len : nat := length file.
Definition rd (p : nat) : res Z :=
  if (p <? len)%nat then Ok (nth p file 0) else if (p =? len)%nat && pad then Ok 0 else Fault.

(** is_line_ending, io_utils.h:163-166: '\r', '\n', '\0' *)
Definition is_le (c : Z) : bool := (c =? 13) || (c =? 10) || (c =? 0).
(** do_line_ending, :168-184 *)
Definition do_line_ending (p : nat) : res nat :=
  c <- rd p ;;
  if negb (is_le c) then Err
  else if c =? 0 then Ok p
  else if c =? 13 then (c2 <- rd (S p) ;; if c2 =? 10 then Ok (S (S p)) else Err)
  else Ok (S p).
(** Loops that advance [p] until a byte satisfies [stop].  [fuel] only bounds the recursion: behind the file [rd] faults. *)
Fixpoint scan (fuel : nat) (stop : Z -> bool) (p : nat) : res nat :=
  c <- rd p ;; if stop c then Ok p else match fuel with O => Fault | S f => scan f stop (S p) end.
Definition to_stop (stop : Z -> bool) (p : nat) : res nat := scan (S len - p) stop p.
(** goto_next_line, :186-196 *)
Definition goto_next_line (p : nat) : res nat := q <- to_stop is_le p ;; do_line_ending q.
(** goto_next_line_unchecked, :198-211 *)
Fixpoint find_nl (l : list Z) (p : nat) : option nat :=
  match l with [] => None | c :: r => if c =? 10 then Some p else find_nl r (S p) end.
Definition goto_unchecked (p : nat) : nat := match find_nl (skipn p file) p with Some q => S q | None => len end.
(** while ( mapped_file[pos] == '%' ) goto_next_line(...), hypergraph_io.cpp:80-82, :144-146, :266-268 *)
Fixpoint skip_comments_f (fuel p : nat) : res nat :=
  c <- rd p ;; if c =? 37 then match fuel with O => Fault | S f => q <- goto_next_line p ;; skip_comments_f f q end else Ok p.
Definition skip_comments (p : nat) : res nat := skip_comments_f (S len - p) p.
Definition skip_spaces (p : nat) : res nat := to_stop (fun c => negb (c =? 32)) p.

(** read_number, io_utils.h:213-252; [max] = numeric_limits<ResultType>::max(), [lim] = length *)
Definition is_sep (c : Z) : bool := (c =? 32) || is_le c.
Fixpoint num_loop (fuel : nat) (max : Z) (lim : nat) (number : Z) (p : nat) : res (Z * nat) :=
  if (p <? lim)%nat then
    c <- rd p ;;
    if is_sep c then (q <- skip_spaces p ;; Ok (number, q))
    else if (c <? 48) || (57 <? c) then Err
    else if (max - (c - 48)) / 10 <? number then (_ <- to_stop is_sep p ;; Err)
    else match fuel with O => Fault | S f => num_loop f max lim (number * 10 + (c - 48)) (S p) end
  else Ok (number, p).
Definition read_number (max : Z) (lim p : nat) : res (Z * nat) :=
  q <- skip_spaces p ;;
  c <- rd q ;;
  if is_le c then Err else num_loop (S len) max lim 0 q.

(** readFormatInfo, hypergraph_io.cpp:47-68: (edge weights, vertex weights, position) *)
Definition read_format (p : nat) : res (bool * bool * nat) :=
  c <- rd p ;;
  if is_le c then Ok (false, false, p)
  else '(f, q) <- read_number MAXID len p ;;
       if 100 <=? f then Err
       else if ((f / 10 =? 0) || (f / 10 =? 1)) && ((f mod 10 =? 0) || (f mod 10 =? 1))
            then Ok (f mod 10 =? 1, f / 10 =? 1, q) else Err.
(** readHGRHeader, :70-88 / readMetisHeader, :274-291: first and second number, formats *)
Definition read_header : res (Z * Z * bool * bool * nat) :=
  p <- skip_comments 0 ;;
  '(a, p) <- read_number MAXID len p ;;
  '(b, p) <- read_number MAXID len p ;;
  '(we, wv, p) <- read_format p ;;
  p <- do_line_ending p ;;
  Ok (a, b, we, wv, p).

(** split_lines, io_utils.h:266-321 *)
(** while ( mapped_file[pos] == '%' && pos < length ), :280-282 *)
Fixpoint skip_comments_u (fuel p : nat) : res nat :=
  c <- rd p ;; if (c =? 37) && (p <? len)%nat then match fuel with O => Fault | S f => skip_comments_u f (goto_unchecked p) end else Ok p.
(** :278-288, [k] = lines still expected; [acc] = line_positions *)
Fixpoint split_loop (k : nat) (p : nat) (acc : list nat) : res (list nat * nat) :=
  p <- skip_comments_u (S len - p) p ;;
  match k with
  | O => Ok (acc, p)
  | S k' => if (len <=? p)%nat then Ok (acc, p) else let q := goto_unchecked p in split_loop k' q (acc ++ [q])
  end.
Record range := mkR { r_start : nat; r_end : nat; r_index : nat; r_lines : nat }.
Section Ranges.
Variables (P : list nat) (b : nat).
Definition pos_ (i : nat) : nat := nth i P 0%nat.
(** the do-while of :310-314, [fuel] bounds the recursion *)
Fixpoint advance (fuel start j : nat) : nat :=
  let j := S j in
  match fuel with
  | O => j
  | S f => if (S j <? length P)%nat && (pos_ j - pos_ start <? b)%nat then advance f start j else j
  end.
(** :306-319 *)
Fixpoint ranges (fuel i : nat) : list range :=
  match fuel with
  | O => []
  | S f => if (S i <? length P)%nat then
             let j := advance (length P) i i in
             (if (0 <? pos_ j - pos_ i)%nat then [mkR (pos_ i) (pos_ j) i (j - i)] else []) ++ ranges f j
           else []
  end.
End Ranges.
(** [nr] = num_parallel_ranges() = 2 * hardware_concurrency() *)
Definition split_lines (nr p0 expected : nat) : res (list range * nat) :=
  '(P, p) <- split_loop expected p0 [p0] ;;
  P <- (if (length P <? S expected)%nat then (c <- (if (p =? 0)%nat then Fault else rd (p - 1)) ;; Ok (if c =? 10 then P ++ [p] else P)) else Ok P) ;;
  if (length P <? S expected)%nat then Err
  else Ok (ranges P ((p - p0) / nr + 1) (length P) 0, p).

(** Processing of one range: rows with comments in front (:143-179, :333-370); [row] parses a row incl. its line ending *)
Section Rows.
Context {A : Type}.
Variable row : nat -> nat -> nat -> res (A * nat).
Fixpoint read_rows (cnt lim idx p : nat) : res (list A * nat) :=
  match cnt with
  | O => Ok ([], p)
  | S c => p <- skip_comments p ;;
           '(a, p) <- row lim idx p ;;
           '(l, p) <- read_rows c lim (S idx) p ;;
           Ok (a :: l, p)
  end.
(** The parallel_for over all ranges writes to local_edges[i], of which there are [nr] (:118-121, :132). *)
Definition read_ranges (nr : nat) (rs : list range) : res (list (list A)) :=
  if (length rs <=? nr)%nat then
    par_all (map (fun r => '(l, _) <- read_rows (r_lines r) (r_end r) (r_index r) (r_start r) ;; Ok l) rs)
  else Fault.
End Rows.
(** target.resize(t) and copy_to_global_list, io_utils.h:323-345 *)
Definition to_global {A} (d : A) (t : nat) (l : list A) : list A := firstn t (l ++ repeat d (t - length l)).

(** *** hMetis *)
(** :155-164 *)
Fixpoint hgr_pins (fuel : nat) (n : Z) (lim p : nat) : res (list nat * nat) :=
  c <- rd p ;;
  if is_le c then Ok ([], p)
  else match fuel with
       | O => Fault
       | S f => '(x, p) <- read_number MAXID lim p ;;
                if x =? 0 then Err else if n <? x then Err
                else '(l, p) <- hgr_pins f n lim p ;; Ok (Z.to_nat (x - 1) :: l, p)
       end.
(** :148-178; the result is the weight and the deduplicated pins *)
Definition hgr_row (hasw : bool) (n : Z) (lim idx p : nat) : res ((Z * list nat) * nat) :=
  '(w, p) <- (if hasw then read_number MAXW lim p else Ok (0, p)) ;;
  '(pins, p) <- hgr_pins (S len) n lim p ;;
  p <- do_line_ending p ;;
  match pins with [] => Err | _ => Ok ((w, dedup pins), p) end.
(** :179-186 *)
Definition kept (remove_single : bool) (e : Z * list nat) : bool := negb remove_single || (1 <? length (snd e))%nat.
(** readHypernodeWeights, :214-233; [cnt] weights left *)
Fixpoint read_weights (cnt p : nat) : res (list Z * nat) :=
  match cnt with
  | O => Ok ([], p)
  | S c => if (len <=? p)%nat then Err
           else '(w, p) <- read_number MAXW len p ;; p <- do_line_ending p ;; '(l, p) <- read_weights c p ;; Ok (w :: l, p)
  end.
Record hgr := mkHGR { h_m : Z; h_n : Z; h_removed : Z; h_edges : list (list nat); h_ew : option (list Z); h_nw : option (list Z) }.
(** readHypergraphFile, :236-272; an empty file cannot be mapped (:133-136) *)
Definition read_hgr (nr : nat) (remove_single : bool) : res hgr :=
  if (len =? 0)%nat then Err else
  '(m, n, we, wv, p) <- read_header ;;
  '(rs, p) <- split_lines nr p (Z.to_nat m) ;;
  ls <- read_ranges (hgr_row we n) nr rs ;;
  let rows := concat (map (filter (kept remove_single)) ls) in
  let removed := Z.of_nat (list_sum (map (fun l => length (filter (fun e => negb (kept remove_single e)) l)) ls)) in
  let m' := Z.to_nat (m - removed) in
  '(nws, p) <- (if wv then '(l, p) <- read_weights (Z.to_nat n) p ;; Ok (Some l, p) else Ok (None, p)) ;;
  p <- skip_comments p ;;
  if (p =? len)%nat then
    Ok (mkHGR (m - removed) n removed (to_global [] m' (map snd rows)) (if we then Some (to_global 0 m' (map fst rows)) else None) nws)
  else Err.

(** *** Metis *)
(** :346-366, targets (and weights) of vertex [u] *)
Fixpoint metis_targets (fuel : nat) (n : Z) (hasw : bool) (u lim p : nat) : res (list (nat * Z) * nat) :=
  c <- rd p ;;
  if is_le c then Ok ([], p)
  else match fuel with
       | O => Fault
       | S f => '(x, p) <- read_number MAXID lim p ;;
                if x =? 0 then Err else if n <? x then Err
                else '(w, p) <- (if hasw then read_number MAXW lim p else Ok (1, p)) ;;
                     '(l, p) <- metis_targets f n hasw u lim p ;;
                     Ok (if Z.of_nat u <? x - 1 then (Z.to_nat (x - 1), w) :: l else l, p)
       end.
(** :340-369 *)
Definition metis_row (we wv : bool) (n : Z) (lim u p : nat) : res ((Z * list (nat * nat * Z)) * nat) :=
  '(nw, p) <- (if wv then read_number MAXW lim p else Ok (1, p)) ;;
  '(l, p) <- metis_targets (S len) n we u lim p ;;
  p <- do_line_ending p ;;
  Ok ((nw, map (fun t => (u, fst t, snd t)) l), p).
Record metis := mkMetis { t_m : Z; t_n : Z; t_edges : list (nat * nat); t_ew : option (list Z); t_nw : option (list Z) }.
(** readGraphFile, :420-452, readVertices, :301-418.  vertices_weight[current_vertex_id] is written at the row's index
    (:341): entries of rows that are never processed keep the value 0 of resize. *)
Definition read_metis (nr : nat) : res metis :=
  if (len =? 0)%nat then Err else
  '(n, m, we, wv, p) <- read_header ;;
  '(rs, p) <- split_lines nr p (Z.to_nat n) ;;
  ls <- read_ranges (metis_row we wv n) nr rs ;;
  let es := concat (map (fun l => concat (map snd l)) ls) in
  let vw := fold_left (fun f rl => fold_left (fun f iw => upd f (fst iw) (snd iw)) (combine (seq (r_index (fst rl)) (length (snd rl))) (map fst (snd rl))) f)
              (combine rs ls) (fun _ => 0) in
  if Z.of_nat (length es) =? m then
    p <- skip_comments p ;;
    if (p =? len)%nat then
      Ok (mkMetis m n (map fst es) (if we then Some (map snd es) else None) (if wv then Some (map vw (seq 0 (Z.to_nat n))) else None))
    else Err
  else Err.
End Reader.
