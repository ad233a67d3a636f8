(** Model of ds/BitPackingVector.hpp (with ds/IntPtr.hpp, ds/IntRepr.hpp) and
    ds/BitPackingVectorSlice.hpp.

    The backing store m_vec is a list of 64-bit words.  A pointer (word pointer, offset < 64)
    is its absolute bit index 64 * word + offset; bits::move_right / move_left (sdsl) add or
    subtract a width.  sdsl::bits::read_int / write_int are external: they are modelled after
    their published code.  Access outside the words is [None].  Sizes are [nat]: bit counts
    stay below 2^64. *)
From Verif Require Import Base.
Local Open Scope nat_scope.

Definition lo_set (n : nat) : N := N.ones (N.of_nat n).
Definition shl (x : N) (k : nat) : N := w64 (N.shiftl x (N.of_nat k)).
Definition shr (x : N) (k : nat) : N := N.shiftr x (N.of_nat k).
(** ~x for a 64-bit word *)
Definition not64 (x : N) : N := N.lxor x (N.ones 64).

(** sdsl::bits::read_int(word, offset, len) at bit index [p] *)
Definition read_int (ws : list N) (p len : nat) : option N :=
  do a <- nth_error ws (p / 64);
  let w1 := shr a (p mod 64) in
  if 64 <? p mod 64 + len then
    do b <- nth_error ws (p / 64 + 1);
    Some (N.lor w1 (shl (N.land b (lo_set ((p mod 64 + len) mod 64))) (64 - p mod 64)))
  else Some (N.land w1 (lo_set len)).
(** sdsl::bits::write_int(word, x, offset, len) *)
Definition write_int (ws : list N) (p : nat) (x : N) (len : nat) : option (list N) :=
  let x := N.land x (lo_set len) in
  do a <- nth_error ws (p / 64);
  if p mod 64 + len <? 64 then
    Some (upd ws (p / 64)
           (N.lor (N.land a (N.lor (shl (N.ones 64) (p mod 64 + len)) (lo_set (p mod 64)))) (shl x (p mod 64))))
  else
    let ws1 := upd ws (p / 64) (N.lor (N.land a (lo_set (p mod 64))) (shl x (p mod 64))) in
    let o := (p mod 64 + len) mod 64 in
    if o =? 0 then Some ws1
    else
      do b <- nth_error ws1 (p / 64 + 1);
      Some (upd ws1 (p / 64 + 1) (N.lor (N.land b (not64 (lo_set o))) (shr x (len - o)))).
(** IntRepr.hpp:26-41 BitWidthMemRw (bit vectors) *)
Definition write_bit (ws : list N) (p : nat) (v : N) : option (list N) :=
  do a <- nth_error ws (p / 64);
  let mask := shl 1 (p mod 64) in
  Some (upd ws (p / 64) (N.lor (N.land a (not64 mask)) (shl (N.land v 1) (p mod 64)))).
Definition read_bit (ws : list N) (p : nat) : option N :=
  do a <- nth_error ws (p / 64);
  Some (if (N.land a (shl 1 (p mod 64)) =? 0)%N then 0%N else 1%N).

(** m_vec, m_real_size, width; [pv_fixed]: FixedBitPackingVectorRepr, whose set_width_raw does
    nothing (IntRepr.hpp:92-123) *)
Record pvec := mk_pvec { pv_ws : list N; pv_n : nat; pv_w : nat; pv_fixed : bool }.

(** BitPackingVector.hpp:68-76 bits2backing *)
Definition bits2backing (bits : nat) : nat := if bits =? 0 then 0 else (bits - 1) / 64 + 1.
(** std::vector::resize(n, 0) on the words *)
Definition words_resize (ws : list N) (n : nat) : list N := firstn n ws ++ repeat 0%N (n - length ws).

(** BitPackingVector.hpp:262-269 with IntPtr.hpp:256-259 and :309-317; the bool specialisation
    uses read_bit and write_bit *)
Definition get_w (ws : list N) (w i : nat) : option N := read_int ws (i * w) w.
Definition set_w (ws : list N) (w i : nat) (x : N) : option (list N) := write_int ws (i * w) x w.
Definition pv_get (v : pvec) (i : nat) : option N := if i <? pv_n v then get_w (pv_ws v) (pv_w v) i else None.
Definition with_ws (v : pvec) (ws : list N) : pvec := mk_pvec ws (pv_n v) (pv_w v) (pv_fixed v).
Definition pv_set (v : pvec) (i : nat) (x : N) : option pvec :=
  if i <? pv_n v then do ws <- set_w (pv_ws v) (pv_w v) i x; Some (with_ws v ws) else None.
(** *a = val for the [k] elements from [i] on *)
Fixpoint fill_w (ws : list N) (w i k : nat) (x : N) : option (list N) :=
  match k with
  | O => Some ws
  | S k' => do ws' <- set_w ws w i x; fill_w ws' w (i + 1) k' x
  end.

(** :100-104 default, :101-106 sized *)
Definition pv_empty (w : nat) (fixed : bool) : pvec := mk_pvec [] 0 w fixed.
Definition pv_sized (n w : nat) (fixed : bool) : pvec :=
  mk_pvec (repeat 0%N (bits2backing (n * w))) n w fixed.
(** :107-114 *)
Definition pv_filled (n : nat) (x : N) (w : nat) (fixed : bool) : option pvec :=
  let v := pv_sized n w fixed in do ws <- fill_w (pv_ws v) w 0 n x; Some (with_ws v ws).
(** :227-230 resize(n) *)
Definition pv_resize0 (v : pvec) (n : nat) : pvec :=
  mk_pvec (words_resize (pv_ws v) (bits2backing (n * pv_w v))) n (pv_w v) (pv_fixed v).
(** :232-240 resize(n, val) *)
Definition pv_resize (v : pvec) (n : nat) (x : N) : option pvec :=
  let v1 := pv_resize0 v n in
  if pv_n v <? n then do ws <- fill_w (pv_ws v1) (pv_w v) (pv_n v) (n - pv_n v) x; Some (with_ws v1 ws)
  else Some v1.
(** :116-125 (n, val, width) *)
Definition pv_filled_width (n : nat) (x : N) (w : nat) (fixed : bool) (own : nat) : option pvec :=
  pv_resize (pv_empty (if fixed then own else w) fixed) n x.
(** :333-341 push_back: words are appended while the bits do not fit *)
Definition pv_push (v : pvec) (x : N) : option pvec :=
  let n' := pv_n v + 1 in
  let need := bits2backing (n' * pv_w v) in
  let ws := pv_ws v ++ repeat 0%N (need - length (pv_ws v)) in
  do ws' <- set_w ws (pv_w v) (pv_n v) x;
  Some (mk_pvec ws' n' (pv_w v) (pv_fixed v)).
(** :348-354 pop_back *)
Definition pv_pop (v : pvec) : option pvec :=
  match pv_n v with
  | O => None
  | S n' => Some (mk_pvec (firstn (bits2backing (n' * pv_w v)) (pv_ws v)) n' (pv_w v) (pv_fixed v))
  end.
(** :381-392: the [k] elements below [old] move up by [n], last first *)
Fixpoint move_up (ws : list N) (w n p k : nat) : option (list N) :=
  match k with
  | O => Some ws
  | S k' => do x <- get_w ws w (p + k'); do ws' <- set_w ws w (p + k' + n) x; move_up ws' w n p k'
  end.
(** :360-402 insert(position, n, val) *)
Definition pv_insert (v : pvec) (p n : nat) (x : N) : option pvec :=
  let w := pv_w v in
  let extra := 64 * length (pv_ws v) - pv_n v * w in
  let need := if extra <? n * w then n * w - extra else 0 in
  let ws := pv_ws v ++ repeat 0%N (bits2backing need) in
  do ws1 <- move_up ws w n p (pv_n v - p);
  do ws2 <- fill_w ws1 w p n x;
  Some (mk_pvec ws2 (pv_n v + n) w (pv_fixed v)).
(** :404-419 insert(position, first, last), one by one *)
Fixpoint pv_insert_list (v : pvec) (p : nat) (xs : list N) : option pvec :=
  match xs with
  | [] => Some v
  | x :: xs' => do v' <- pv_insert v p 1 x; pv_insert_list v' (p + 1) xs'
  end.
(** std::copy, front to back *)
Fixpoint move_down (ws : list N) (w src dst k : nat) : option (list N) :=
  match k with
  | O => Some ws
  | S k' => do x <- get_w ws w src; do ws' <- set_w ws w dst x; move_down ws' w (src + 1) (dst + 1) k'
  end.
(** :434-445 erase(first, last) *)
Definition pv_erase (v : pvec) (from to : nat) : option pvec :=
  let w := pv_w v in
  do ws <- move_down (pv_ws v) w to from (pv_n v - to);
  let n' := pv_n v - (to - from) in
  let obsolete := length ws - bits2backing (n' * w) in
  Some (mk_pvec (firstn (length ws - obsolete) ws) n' w (pv_fixed v)).
(** :456-459 *)
Definition pv_clear (v : pvec) : pvec := mk_pvec [] 0 (pv_w v) (pv_fixed v).
(** :503-510: last first, into the wider grid *)
Fixpoint widen (ws : list N) (ow nw k : nat) : option (list N) :=
  match k with
  | O => Some ws
  | S k' => do x <- read_int ws (k' * ow) ow; do ws' <- write_int ws (k' * nw) x nw; widen ws' ow nw k'
  end.
(** :521-524: first first, into the narrower grid *)
Fixpoint narrow (ws : list N) (ow nw i k : nat) : option (list N) :=
  match k with
  | O => Some ws
  | S k' => do x <- read_int ws (i * ow) ow; do ws' <- write_int ws (i * nw) x nw; narrow ws' ow nw (i + 1) k'
  end.
(** :477-540 resize(n, val, w).  With equal widths neither branch runs: the size stays
    and, since end() is computed from the old size, nothing is written. *)
Definition pv_resize_width (v : pvec) (n : nat) (x : N) (w : nat) : option pvec :=
  let ow := pv_w v in
  let rw := if pv_fixed v then ow else w in
  let common := Nat.min (pv_n v) n in
  let back := bits2backing (n * w) in
  do v1 <- (if ow <? w then
              do ws <- widen (words_resize (pv_ws v) back) ow w common; Some (mk_pvec ws n rw (pv_fixed v))
            else if w <? ow then
              do ws <- narrow (pv_ws v) ow w 0 common; Some (mk_pvec (words_resize ws back) n rw (pv_fixed v))
            else Some v);
  do ws <- fill_w (pv_ws v1) (pv_w v1) (pv_n v) (pv_n v1 - pv_n v) x;
  Some (with_ws v1 ws).
(** :472-475 width(w) *)
Definition pv_width (v : pvec) (w : nat) : option pvec := pv_resize_width v (pv_n v) 0%N w.

(** element comparison of two vectors, [k] elements from [i] (std::equal over iterators) *)
Fixpoint eq_elems (a : list N) (b : list N) (wa wb i k : nat) : option bool :=
  match k with
  | O => Some true
  | S k' => do x <- get_w a wa i; do y <- get_w b wb i;
            if (x =? y)%N then eq_elems a b wa wb (i + 1) k' else Some false
  end.
Fixpoint eq_words (a b : list N) : bool :=
  match a, b with
  | [], [] => true
  | x :: a', y :: b' => (x =? y)%N && eq_words a' b'
  | _, _ => false
  end.
(** :552-576 operator== *)
Definition pv_eq (a b : pvec) : option bool :=
  if pv_n a =? pv_n b then
    let extra := 64 * length (pv_ws a) - pv_n a * pv_w a in
    if extra =? 0 then Some (eq_words (pv_ws a) (pv_ws b))
    else if eq_words (firstn (length (pv_ws a) - 1) (pv_ws a)) (firstn (length (pv_ws a) - 1) (pv_ws b)) then
      let occupied := 64 - extra in
      let elements := (occupied - 1) / pv_w a + 1 in
      eq_elems (pv_ws a) (pv_ws b) (pv_w a) (pv_w b) (pv_n a - elements) elements
    else Some false
  else Some false.

(** ** BitPackingVectorSlice *)
Record pslice := mk_pslice { ps_ws : list N; ps_n : nat; ps_w : nat; ps_off : nat }.
(** BitPackingVectorSlice.hpp:133-135 *)
Definition ps_of (v : pvec) : pslice :=
  mk_pslice (firstn (bits2backing (pv_n v * pv_w v)) (pv_ws v)) (pv_n v) (pv_w v) 0.
(** :199-205 *)
Definition ps_get (s : pslice) (i : nat) : option N :=
  if i <? ps_n s then read_int (ps_ws s) (ps_off s + i * ps_w s) (ps_w s) else None.
(** :234-252; [None]: the slice of m_vec would be out of range *)
Definition ps_slice (s : pslice) (from to : nat) : option pslice :=
  let fb := ps_off s + from * ps_w s in
  let tb := ps_off s + to * ps_w s in
  let ti := if tb mod 64 =? 0 then tb / 64 else tb / 64 + 1 in
  if (fb / 64 <=? ti) && (ti <=? length (ps_ws s)) then
    Some (mk_pslice (firstn (ti - fb / 64) (skipn (fb / 64) (ps_ws s))) (to - from) (ps_w s) (fb mod 64))
  else None.
