(** Model of the sorted SLP coder of the ESP compressor: renaming of the rules
    (esp/SLPDepSort.hpp) and the frame of the coder (esp/SortedSLPCoder.hpp), for
    any coding of the right-hand sides (esp/DRCoder.hpp, DCodings.v). *)
From Verif Require Import Base BitIO IntCodes Esp.
Local Open Scope N_scope.

(** ** esp/SLPDepSort.hpp.  Node numbers are [nat]; an out-of-range access is [None]. *)

(** :22-31 append *)
Definition append (fn : list nat * list nat) (i node : nat) : option (list nat * list nat) :=
  let (first, next) := fn in
  do f <- nth_error first i;
  if (f =? i)%nat then Some (upd first i node, next)
  else if (node <? length next)%nat then Some (upd first i node, upd next node f) else None.

(** :37-44, the loop of for_all over the next_child chain; the visited nodes after l *)
Fixpoint chain (fuel : nat) (next : list nat) (l : nat) : option (list nat) :=
  match fuel with
  | O => None
  | S fuel =>
      do m <- nth_error next l;
      if (m =? l)%nat then Some [] else do r <- chain fuel next m; Some (m :: r)
  end.
(** :33-46 for_all *)
Definition for_all (fn : list nat * list nat) (i : nat) : option (list nat) :=
  let (first, next) := fn in
  do l <- nth_error first i;
  if (l =? i)%nat then Some [] else do r <- chain (length next) next l; Some (l :: r).

(** :48-55: from the last rule to the first; [k] rules are still to do *)
Fixpoint build (k : nat) (rules : list (N * N)) (fn : list nat * list nat) : option (list nat * list nat) :=
  match k with
  | O => Some fn
  | S j =>
      do (a, _) <- nth_error rules j;
      do fn <- append fn (N.to_nat a) (j + 256)%nat;
      build j rules fn
  end.

(** :61-87: the queue; [counter] counts the elements taken *)
Fixpoint bfs (fuel : nat) (fn : list nat * list nat) (queue : list nat) (counter : nat) (rename : list nat) : option (list nat) :=
  match queue, fuel with
  | [], _ => Some rename
  | _, O => None
  | e :: queue, S fuel =>
      do cs <- for_all fn e;
      let queue := queue ++ cs in
      if (e <? 256)%nat then bfs fuel fn queue (S counter) rename
      else if (e - 256 <? length rename)%nat
           then bfs fuel fn queue (S counter) (upd rename (e - 256) (counter - 256))%nat
           else None
  end.

(** :100-104, :108-110: the new number of a symbol *)
Definition ren (rename : list nat) (e : N) : option N :=
  if 255 <? e then do x <- nth_error rename (N.to_nat e - 256)%nat; Some (N.of_nat x + 256) else Some e.
(** :98-105; [i] is the number of rules already moved *)
Fixpoint move_rules (rename : list nat) (i : nat) (rules : list (N * N)) (out : list (N * N)) : option (list (N * N)) :=
  match rules with
  | [] => Some out
  | (a, b) :: rules =>
      do x <- nth_error rename i;
      do a' <- ren rename a;
      do b' <- ren rename b;
      if (x <? length out)%nat then move_rules rename (S i) rules (upd out x (a', b')) else None
  end.

(** :7-111 slp_dep_sort *)
Definition slp_dep_sort (g : slp) : option slp :=
  let n := length (s_rules g) in
  let ids := seq 0 (n + 256)%nat in
  do fn <- build n (s_rules g) (ids, ids);
  do rename <- bfs (n + 256)%nat fn (seq 0 256) 0 (repeat 0%nat n);
  do rules <- move_rules rename 0 (s_rules g) (repeat (0, 0) n);
  do root <- ren rename (s_root g);
  Some (mk_slp rules root (s_empty g)).

(** ** The interface of a d_coding (esp/DRCoder.hpp): encode(rhs, out, bit_width,
    max_value) gives the bits appended ([None]: it aborts); decode(rhs, in, bit_width,
    max_value) is given the size of rhs and gives its contents.  [fuel] bounds the
    unary numbers read. *)
Record dcoding := mk_dc {
  dc_enc : list N -> nat -> N -> option (list bool);
  dc_dec : nat -> nat -> nat -> N -> bis -> option (list N * bis) }.

(** ** esp/SortedSLPCoder.hpp *)
(** :108-117 (and DRCoder.hpp:173-183): unary differences of ascending values *)
Fixpoint unary_up (last : N) (l : list N) : list bool :=
  match l with
  | [] => []
  | e :: l => write_unary (w64 (e + 2 ^ 64 - last)) ++ unary_up e l
  end.
(** :158-167 (and DRCoder.hpp:250-257): stops at the end of the input; [None]: a unary
    number longer than [fuel] *)
Fixpoint read_up (fuel n : nat) (last : N) (s : bis) : option (list N * bis) :=
  match n with
  | O => Some ([], s)
  | S n =>
      if bis_eof s then Some ([], s)
      else do (d, s) <- rd_unary bis_read_bit fuel s;
           let last := w64 (last + d) in
           do (r, s) <- read_up fuel n last s;
           Some (last :: r, s)
  end.

(** :23-124 encode *)
Definition sorted_slp_bits (dc : dcoding) (g : slp) : option (list bool) :=
  do g <- slp_dep_sort g;
  let max_val := N.of_nat (length (s_rules g)) + 256 - 1 in
  let w := if s_empty g then 0%nat else bits_forn max_val in
  let head := write_int (N.of_nat w) 6 ++ write_int max_val w ++ write_int (s_root g) w in
  if s_empty g || (s_root g <? 256) then Some head
  else do d <- dc_enc dc (map snd (s_rules g)) w max_val;
       Some (head ++ unary_up 0 (map fst (s_rules g)) ++ d).

(** :126-174 decode.  [resize] makes all rules (0, 0); a left-hand side missing
    because the input ended stays 0. *)
Definition pad (n : nat) (l : list N) : list N := l ++ repeat 0 (n - length l).
Definition sorted_slp_decode (dc : dcoding) (f : list N) : option slp :=
  let fuel := S (8 * length f) in
  let '(w, s) := rd_int bis_read_bit 6 (bis_open f) in
  let w := N.to_nat w in
  let '(max_val, s) := rd_int bis_read_bit w s in
  let '(root, s) := rd_int bis_read_bit w s in
  if (w =? 0)%nat || (root <? 256) then Some (mk_slp [] root (w =? 0)%nat)
  else
    let n := N.to_nat (w64 (w64 (max_val + 1) + 2 ^ 64 - 256)) in
    do (lhs, s) <- read_up fuel n 0 s;
    do (rhs, _) <- dc_dec dc fuel n w max_val s;
    Some (mk_slp (combine (pad n lhs) rhs) root false).

(** ** EspCompressor with slp_coder = sorted *)
Definition esp_sorted_compress (dc : dcoding) (text : list N) : option (list N) :=
  do g <- generate_grammar text; do b <- sorted_slp_bits dc g; Some (bits_file b).
Definition esp_sorted_decompress (dc : dcoding) (f : list N) : option (list N) :=
  do g <- sorted_slp_decode dc f; derive_text g.
