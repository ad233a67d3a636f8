(** Model of ds/rank_64bit.hpp, ds/select_64bit.hpp, ds/Rank.hpp and ds/Select.hpp.

    Bit vectors and the auxiliary integer vectors are the packed vectors of IntVec.v.
    Sizes are [nat] (a bit vector has fewer than 2^64 bits), word values are [N] below 2^64.
    __builtin_popcount is external: it counts the set bits.  Access outside the backing
    words is [None]. *)
From Verif Require Import Base IntCodes IntVec.
Local Open Scope nat_scope.

(** number of [i < n] with [f i] *)
Fixpoint cntb (f : nat -> bool) (n : nat) : nat :=
  match n with O => 0 | S n' => cntb f n' + (if f n' then 1 else 0) end.

(** rank_64bit.hpp:12-45 the table *)
Definition rank1_8bit : list nat :=
  [0;1;1;2;1;2;2;3;1;2;2;3;2;3;3;4;1;2;2;3;2;3;3;4;2;3;3;4;3;4;4;5;
   1;2;2;3;2;3;3;4;2;3;3;4;3;4;4;5;2;3;3;4;3;4;4;5;3;4;4;5;4;5;5;6;
   1;2;2;3;2;3;3;4;2;3;3;4;3;4;4;5;2;3;3;4;3;4;4;5;3;4;4;5;4;5;5;6;
   2;3;3;4;3;4;4;5;3;4;4;5;4;5;5;6;3;4;4;5;4;5;5;6;4;5;5;6;5;6;6;7;
   1;2;2;3;2;3;3;4;2;3;3;4;3;4;4;5;2;3;3;4;3;4;4;5;3;4;4;5;4;5;5;6;
   2;3;3;4;3;4;4;5;3;4;4;5;4;5;5;6;3;4;4;5;4;5;5;6;4;5;5;6;5;6;6;7;
   2;3;3;4;3;4;4;5;3;4;4;5;4;5;5;6;3;4;4;5;4;5;5;6;4;5;5;6;5;6;6;7;
   3;4;4;5;4;5;5;6;4;5;5;6;5;6;6;7;4;5;5;6;5;6;6;7;5;6;6;7;6;7;7;8].
(** :51-53 *)
Definition rank1_u8 (v : N) : option nat := nth_error rank1_8bit (N.to_nat v).
(** :75-77 (__builtin_popcountll) *)
Definition rank1_w (v : N) : nat := cntb (fun k => N.testbit v (N.of_nat k)) 64.
(** :90-95 *)
Definition rank1_wm (v : N) (m : nat) : nat := rank1_w (N.land v (shr (N.ones 64) (63 - m))).
(** :109-119 *)
Definition rank1_wlm (v : N) (l m : nat) : nat :=
  rank1_w (N.land (N.land v (shr (N.ones 64) (63 - m))) (shl (N.ones 64) l)).
(** :122-134 *)
Definition rank0_w (v : N) : nat := 63 + 1 - rank1_w v.
Definition rank0_wm (v : N) (m : nat) : nat := (m + 1) - rank1_wm v m.
Definition rank0_wlm (v : N) (l m : nat) : nat := (m - l + 1) - rank1_wlm v l m.

(** select_64bit.hpp:13; :26-37 select1: the loop over the bits, at most 64 rounds since the
    value is a 64-bit word *)
Definition SELECT_FAIL : nat := 255.
Fixpoint select1_loop (fuel : nat) (v : N) (k pos : nat) : nat :=
  match fuel with
  | O => SELECT_FAIL
  | S f =>
    if (v =? 0)%N then SELECT_FAIL
    else if N.odd v then (if k - 1 =? 0 then pos else select1_loop f (N.div2 v) (k - 1) (pos + 1))
    else select1_loop f (N.div2 v) k (pos + 1)
  end.
Definition select1_w (v : N) (k : nat) : nat := select1_loop 65 v k 0.
(** :49-52 *)
Definition select1_lw (v : N) (l k : nat) : nat :=
  let pos := select1_w (shr v l) k in if negb (pos =? SELECT_FAIL) then l + pos else SELECT_FAIL.
(** :65-77 select0; the counter is a uint8_t *)
Fixpoint select0_loop (fuel : nat) (v : N) (k pos : nat) : nat :=
  match fuel with
  | O => SELECT_FAIL
  | S f =>
    if (v =? 0)%N then let pos := (pos + (k - 1)) mod 256 in if pos <=? 63 then pos else SELECT_FAIL
    else if negb (N.odd v) then (if k - 1 =? 0 then pos else select0_loop f (N.div2 v) (k - 1) (pos + 1))
    else select0_loop f (N.div2 v) k (pos + 1)
  end.
Definition select0_w (v : N) (k : nat) : nat := select0_loop 65 v k 0.
(** :89-97 *)
Definition select0_lw (v : N) (l k : nat) : nat :=
  let pos := select0_w (shr v l) k in
  if negb (pos =? SELECT_FAIL) then (let pos := (pos + l) mod 256 in if pos <=? 63 then pos else SELECT_FAIL)
  else SELECT_FAIL.

(** util.hpp:204-206 *)
Definition idiv_ceil (a b : nat) : nat := a / b + (if 0 <? a mod b then 1 else 0).

(** ** Rank.hpp *)
(** :19-20, :81 *)
Definition rk_block := 64.
Definition rk_sup := rk_block * rk_block.
Record rankds := mk_rank { rk_bv : pvec; rk_blocks : pvec; rk_supblocks : pvec }.
(** :105-119, [k] blocks from [j] on *)
Fixpoint rank_loop (data : list N) (j k : nat) (sup blk : pvec) (rank_bv rank_sb cur_sb : nat)
  : option (pvec * pvec) :=
  match k with
  | O => Some (sup, blk)
  | S k' =>
    let i := j / (rk_sup / rk_block) in
    do st <- (if cur_sb <? i then do s <- pv_set sup cur_sb (N.of_nat rank_bv); Some (s, 0, i)
              else Some (sup, rank_sb, cur_sb));
    let '(sup, rank_sb, cur_sb) := st in
    do v <- nth_error data j;
    let rank_b := rank1_w v in
    do blk <- pv_set blk j (N.of_nat (rank_sb + rank_b));
    rank_loop data (j + 1) k' sup blk (rank_bv + rank_b) (rank_sb + rank_b) cur_sb
  end.
(** :79-120 *)
Definition rank_new (bv : pvec) : option rankds :=
  let n := pv_n bv in
  let num_supblocks := idiv_ceil n rk_sup in
  let num_blocks := idiv_ceil n rk_block in
  do sup <- pv_filled_width num_supblocks 0 (bits_forn (N.of_nat n)) false 64;
  do blk <- pv_filled_width num_blocks 0 (bits_forn (N.of_nat rk_sup)) false 64;
  do r <- rank_loop (pv_ws bv) 0 num_blocks sup blk 0 0 0;
  Some (mk_rank bv (snd r) (fst r)).
(** :126-138 rank1(x) *)
Definition rank1 (d : rankds) (x : nat) : option nat :=
  let i := x / rk_sup in
  do r <- (if 0 <? i then do a <- pv_get (rk_supblocks d) (i - 1); Some (N.to_nat a) else Some 0);
  let j := x / rk_block in
  let k := j - i * (rk_sup / rk_block) in
  do r <- (if 0 <? k then do a <- pv_get (rk_blocks d) (j - 1); Some (r + N.to_nat a) else Some r);
  do v <- nth_error (pv_ws (rk_bv d)) j;
  Some (r + rank1_wm v (x mod rk_block)).
(** :145-150 *)
Definition rank1_between (d : rankds) (x y : nat) : option nat :=
  do r <- rank1 d y;
  if 0 <? x then do a <- rank1 d (x - 1); Some (r - a) else Some r.
(** :166-168 *)
Definition rank0 (d : rankds) (x : nat) : option nat := do r <- rank1 d x; Some (x + 1 - r).
(** :175-177 *)
Definition rank0_between (d : rankds) (x y : nat) : option nat :=
  do r <- rank1_between d x y; Some ((y - x + 1) - r).

(** ** Select.hpp *)
(** :254-297 the template variants *)
Definition basic_rank (b : bool) (v : N) : nat := if b then rank1_w v else rank0_w v.
Definition basic_rank_lm (b : bool) (v : N) (l m : nat) : nat := if b then rank1_wlm v l m else rank0_wlm v l m.
Definition basic_select (b : bool) (v : N) (k : nat) : nat := if b then select1_w v k else select0_w v k.
Definition basic_select_l (b : bool) (v : N) (l k : nat) : nat := if b then select1_lw v l k else select0_lw v l k.

(** the state of the constructor's loop; the vectors are still of width log_n and are written
    without a check against their size (the DCHECK of operator[] is compiled out) *)
Record selst := mk_selst {
  ss_sup : list N; ss_blk : list N;
  ss_rsb : nat; ss_rb : nat; ss_csb : nat; ss_off : nat; ss_long : nat; ss_cb : nat }.
(** :141-165 the inner while loop; [ds] is distance_sum, [db] distance_b *)
Fixpoint sel_inner (fuel : nat) (b : bool) (L i : nat) (v : N) (offs db ds : nat) (s : selst)
  : option (selst * nat) :=
  if ss_rb s <? L then Some (s, ds)
  else match fuel with
  | O => None
  | S f =>
    let offs := basic_select_l b v offs db in
    let pos := i * 64 + offs in
    let ds := ds + db in
    let rsb := ss_rsb s + db in
    do s1 <- (if L * L <=? rsb then
                do sup <- set_w (ss_sup s) L (ss_csb s) (N.of_nat pos);
                Some (mk_selst sup (ss_blk s) (rsb - L * L) (ss_rb s) (ss_csb s + 1) pos
                        (Nat.max (ss_long s) (pos - ss_off s)) (ss_cb s))
              else Some (mk_selst (ss_sup s) (ss_blk s) rsb (ss_rb s) (ss_csb s) (ss_off s) (ss_long s) (ss_cb s)));
    do blk <- set_w (ss_blk s1) L (ss_cb s1) (N.of_nat (pos - ss_off s1));
    sel_inner f b L i v (offs + 1) L ds
      (mk_selst (ss_sup s1) blk (ss_rsb s1) (ss_rb s1 - L) (ss_csb s1) (ss_off s1) (ss_long s1) (ss_cb s1 + 1))
  end.
(** :125-173 one word *)
Definition sel_word (b : bool) (L i : nat) (v : N) (s : selst) : option selst :=
  let r := basic_rank b v in
  if L <=? ss_rb s + r then
    do q <- sel_inner 65 b L i v 0 (L - ss_rb s) 0
              (mk_selst (ss_sup s) (ss_blk s) (ss_rsb s) (ss_rb s + r) (ss_csb s) (ss_off s) (ss_long s) (ss_cb s));
    let '(s', ds) := q in
    Some (mk_selst (ss_sup s') (ss_blk s') (ss_rsb s' + (r - ds)) (ss_rb s') (ss_csb s') (ss_off s') (ss_long s') (ss_cb s'))
  else Some (mk_selst (ss_sup s) (ss_blk s) (ss_rsb s + r) (ss_rb s + r) (ss_csb s) (ss_off s) (ss_long s) (ss_cb s)).
(** :124-173, [k] words from [i] on; [mx] is m_max *)
Fixpoint sel_loop (b : bool) (L : nat) (data : list N) (i k mx : nat) (s : selst) : option (selst * nat) :=
  match k with
  | O => Some (s, mx)
  | S k' =>
    do v <- nth_error data i;
    do s' <- sel_word b L i v s;
    sel_loop b L data (i + 1) k' (mx + basic_rank b v) s'
  end.
Record selectds := mk_select {
  sl_bit : bool; sl_bv : pvec; sl_max : nat; sl_bsize : nat; sl_supsize : nat; sl_blocks : pvec; sl_sups : pvec }.
(** :101-184; n - cur_sb_offset is a size_t *)
Definition select_new (b : bool) (bv : pvec) : option selectds :=
  let n := pv_n bv in
  let L := bits_forn (N.of_nat n) in
  do sup <- pv_filled_width (idiv_ceil n (L * L)) 0 L false 64;
  do blk <- pv_filled_width (idiv_ceil n L) 0 L false 64;
  do q <- sel_loop b L (pv_ws bv) 0 (idiv_ceil n 64) 0 (mk_selst (pv_ws sup) (pv_ws blk) 0 0 0 0 0 0);
  let '(s, mx) := q in
  let longest := N.max (N.of_nat (ss_long s)) (w64 (N.of_nat n + 2 ^ 64 - N.of_nat (ss_off s))) in
  do blk <- pv_width (pv_resize0 (with_ws blk (ss_blk s)) (ss_cb s)) (bits_forn longest);
  Some (mk_select b bv mx L (L * L) blk (pv_resize0 (with_ws sup (ss_sup s)) (ss_csb s))).
(** :234-239 the do-while loop; [i] is the word of the previous round *)
Fixpoint sel_search (fuel : nat) (b : bool) (data : list N) (i x : nat) : option nat :=
  match fuel with
  | O => None
  | S f =>
    let i := i + 1 in
    do v <- nth_error data i;
    let s := basic_select b v x in
    if s =? SELECT_FAIL then sel_search f b data i (x - basic_rank b v) else Some (i * 64 + s)
  end.
(** :191-243 select(x) *)
Definition select (d : selectds) (x : nat) : option nat :=
  if sl_max d <? x then Some (pv_n (sl_bv d))
  else
    let i := x / sl_supsize d in
    let j := x / sl_bsize d in
    do q <- (if 0 <? i then do p <- pv_get (sl_sups d) (i - 1); Some (N.to_nat p, x - i * sl_supsize d) else Some (0, x));
    let '(pos, x) := q in
    if x =? 0 then Some pos
    else
      let k := j - i * (sl_supsize d / sl_bsize d) in
      do q <- (if 0 <? k then do p <- pv_get (sl_blocks d) (j - 1); Some (pos + N.to_nat p, x - k * sl_bsize d) else Some (pos, x));
      let '(pos, x) := q in
      if x =? 0 then Some pos
      else
        let pos := if (0 <? i) || (0 <? k) then pos + 1 else pos in
        let data := pv_ws (sl_bv d) in
        let w := pos / 64 in
        let offs := pos mod 64 in
        do v <- nth_error data w;
        let s := basic_select_l (sl_bit d) v offs x in
        if negb (s =? SELECT_FAIL) then Some (pos + s - offs)
        else sel_search (length data) (sl_bit d) data w (x - basic_rank_lm (sl_bit d) v offs 63).
