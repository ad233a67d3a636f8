(** Model of codings of the right-hand sides (esp/DRCoder.hpp).  Counters that only
    feed the statistics are left out; a failing CHECK (glog: active in every build)
    ends the program and is [None]. *)
From Verif Require Import Base BitIO IntCodes Esp SlpSort.
Local Open Scope N_scope.

(** ** :66-95 DPlain *)
Definition plain_bits (w : nat) (l : list N) : list bool := concat (map (fun x => write_int x w) l).
Fixpoint read_plain (n w : nat) (s : bis) : list N * bis :=
  match n with
  | O => ([], s)
  | S n => let '(x, s) := rd_int bis_read_bit w s in let '(r, s) := read_plain n w s in (x :: r, s)
  end.
Definition d_plain : dcoding :=
  mk_dc (fun rhs w _ => Some (plain_bits w rhs)) (fun _ n w _ s => Some (read_plain n w s)).

(** ** encode_unary_diff / decode_unary_diff *)
(** the differences (:311-319, :362-370) *)
Fixpoint udiffs (last : N) (l : list N) : list N :=
  match l with
  | [] => []
  | c :: l => (if last <=? c then c - last else last - c) :: udiffs c l
  end.
(** :377-394 the sign bits *)
Fixpoint usigns (last : N) (l : list N) : list bool :=
  match l with
  | [] => []
  | c :: l => (if last <? c then [true] else if c <? last then [false] else []) ++ usigns c l
  end.
(** :404-430: runs of equal values, as (value_counter, last_value) *)
Fixpoint uruns (cnt last : N) (l : list N) : list (N * N) :=
  match l with
  | [] => if 0 <? cnt then [(cnt, last)] else []
  | c :: l => if c =? last then uruns (cnt + 1) last l
              else (if 0 <? cnt then [(cnt, last)] else []) ++ uruns 1 c l
  end.
Definition nsum (l : list N) : N := fold_right N.add 0 l.
(** :323-325 unary_sign_bit_counter *)
Definition uchanges (l : list N) : N := N.of_nat (length (filter (fun d => negb (d =? 0)) (udiffs 0 l))).
(** :329-332 diff_val_counter *)
Definition uvals (l : list N) : N := w64 (uchanges l + match l with 0 :: _ => 1 | _ => 0 end).
(** :334-338 *)
Definition bits_unary (l : list N) : N := w64 (N.of_nat (length l) + nsum (udiffs 0 l) + uchanges l).
Definition bits_binary (w dw : nat) (l : list N) : N := w64 (uvals l * N.of_nat (w + dw)).
(** :343 *)
Definition use_unary (w dw : nat) (l : list N) : bool := bits_unary l <=? bits_binary w dw l.
(** :290-437 encode_unary_diff *)
Definition unary_diff_bits (w dw : nat) (sign : bool) (l : list N) : option (list bool) :=
  if use_unary w dw l then
    let signs := if sign then usigns 0 l else [] in
    (* :397 CHECK_EQ(diff_sign_bits + sign_bits, bits_unary) *)
    if w64 (nsum (map (fun d => d + 1) (udiffs 0 l)) + N.of_nat (length signs)) =? bits_unary l
    then Some (true :: concat (map write_unary (udiffs 0 l)) ++ signs)
    else None
  else
    let rs := uruns 0 0 l in
    (* :433-434 the two CHECK_EQ *)
    if (w64 (N.of_nat (length rs) * N.of_nat (w + dw)) =? bits_binary w dw l) && (N.of_nat (length rs) =? uvals l)
    then Some (false :: concat (map (fun r => write_int (fst r) w ++ write_int (snd r) dw) rs))
    else None.

(** :440-483 decode_unary_diff.  The vector holds values of [vw] bits (64, or 6 for
    IntVector<uint_t<6>>). *)
Definition trunc (vw x : N) : N := x mod 2 ^ vw.
Fixpoint read_unaries (fuel n : nat) (vw : N) (s : bis) : option (list N * bis) :=
  match n with
  | O => Some ([], s)
  | S n => do (d, s) <- rd_unary bis_read_bit fuel s;
           do (r, s) <- read_unaries fuel n vw s;
           Some (trunc vw d :: r, s)
  end.
(** :456-471 *)
Fixpoint add_diffs (sign : bool) (vw last : N) (ds : list N) (s : bis) : list N * bis :=
  match ds with
  | [] => ([], s)
  | d :: ds =>
      let '(last, s) :=
        if d =? 0 then (last, s)
        else if sign then
          let '(b, s) := bis_read_bit s in
          (if b then w64 (last + d) else w64 (last + 2 ^ 64 - d), s)
        else (w64 (last + d), s) in
      let '(r, s) := add_diffs sign vw last ds s in
      (trunc vw last :: r, s)
  end.
(** :472-482; [n] entries are missing.  Writing past the end is [None], and so is a
    loop that goes on for more than n rounds. *)
Fixpoint read_runs (fuel n w dw : nat) (vw : N) (s : bis) : option (list N * bis) :=
  match n, fuel with
  | O, _ => Some ([], s)
  | _, O => None
  | _, S fuel =>
      let '(c, s) := rd_int bis_read_bit w s in
      let '(v, s) := rd_int bis_read_bit dw s in
      if (n <? N.to_nat c)%nat then None
      else do (r, s) <- read_runs fuel (n - N.to_nat c) w dw vw s;
           Some (repeat (trunc vw v) (N.to_nat c) ++ r, s)
  end.
Definition read_unary_diff (fuel n w dw : nat) (sign : bool) (vw : N) (s : bis) : option (list N * bis) :=
  let '(u, s) := bis_read_bit s in
  if u then do (ds, s) <- read_unaries fuel n vw s; Some (add_diffs sign vw 0 ds s)
  else read_runs n n w dw vw s.

(** ** :485-511 DDiff *)
Definition d_diff : dcoding :=
  mk_dc (fun rhs w _ => unary_diff_bits w w true rhs) (fun fuel n w _ s => read_unary_diff fuel n w w true 64 s).

(** ** :513-860 DRangeFit with wt = false.  [close]: the comparison of perc_diff
    (floating point, :514-522) if a threshold is given, any function here; [zm]: the
    option zero_min. *)
(** :550-560 *)
Fixpoint suffix_mins (l : list N) : list N :=
  match l with
  | [] => []
  | x :: l => let m := suffix_mins l in N.min x (hd (2 ^ 64 - 1) m) :: m
  end.
(** :562-571 *)
Fixpoint flatten (close : N -> N -> bool) (last : N) (mins : list N) : list N :=
  match mins with
  | [] => []
  | m :: mins => let m := if close m last then last else m in m :: flatten close m mins
  end.
(** :578-600: the (possibly zeroed) minimum and the bit range of each entry *)
Fixpoint range_bits (zm : bool) (mx flush : N) (rhs mins : list N) : list (N * N) :=
  match rhs, mins with
  | c :: rhs, m :: mins =>
      let mx := if mx <? c then c else mx in
      let m := if zm && (bits_for mx =? bits_for (mx - m)) && (flush =? 0) then 0 else m in
      (m, trunc 6 (bits_for (mx - m))) :: range_bits zm mx (if zm then m else flush) rhs mins
  | _, _ => []
  end.
Definition range_mins (close : option (N -> N -> bool)) (rhs : list N) : list N :=
  match close with Some c => flatten c 0 (suffix_mins rhs) | None => suffix_mins rhs end.
Definition range_table (close : option (N -> N -> bool)) (zm : bool) (rhs : list N) : list (N * N) :=
  range_bits zm 0 0 rhs (range_mins close rhs).
(** :607-616 *)
Definition range_values (rhs : list N) (t : list (N * N)) : list bool :=
  concat (map (fun x => write_int (fst x - fst (snd x)) (N.to_nat (snd (snd x)))) (combine rhs t)).
(** :786-788 *)
Fixpoint read_values (t : list (N * N)) (s : bis) : list N * bis :=
  match t with
  | [] => ([], s)
  | (m, b) :: t =>
      let '(x, s) := rd_int bis_read_bit (N.to_nat b) s in
      let '(r, s) := read_values t s in (w64 (x + m) :: r, s)
  end.
Definition d_range_fit (close : option (N -> N -> bool)) (zm : bool) : dcoding :=
  mk_dc
    (fun rhs w _ =>
       let t := range_table close zm rhs in
       do a <- unary_diff_bits w w false (map fst t);
       do b <- unary_diff_bits w 64 true (map snd t);
       Some (a ++ b ++ range_values rhs t))
    (fun fuel n w _ s =>
       do (mins, s) <- read_unary_diff fuel n w w false 64 s;
       do (bits, s) <- read_unary_diff fuel n w 64 true 6 s;
       Some (read_values (combine mins bits) s)).
