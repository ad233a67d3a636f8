(** Model of the suffix-array companions: ds/ISAFromSA.hpp, ds/PhiFromSA.hpp,
    ds/PLCPFromPhi.hpp, ds/LCPFromPLCP.hpp, ds/SparseISA.hpp, ds/CompressedLCP.hpp and
    ds/LCPSada.hpp.

    The suffix array itself comes from divsufsort (external) and is an argument.  Its
    companions are lists of [nat]; a store into an integer vector of width [w] keeps the low
    [w] bits ([cap]).  Positions are len_t = uint32_t: texts have fewer than 2^32 bytes, so
    index arithmetic does not wrap.  Access outside an array is [None]. *)
From Verif Require Import Base IntCodes IntVec RankSelect.
Local Open Scope nat_scope.

Definition cap (w : nat) (x : nat) : nat := N.to_nat (N.of_nat x mod 2 ^ N.of_nat w)%N.
Definition put (w : nat) (a : list nat) (i x : nat) : option (list nat) :=
  if i <? length a then Some (upd a i (cap w x)) else None.
(** CompressMode.hpp:6-24 (the modes a data structure is constructed with) *)
Inductive cmode := CPlain | CDelayed | CCompressed.
(** def.hpp:128 INDEX_FAST_BITS *)
Definition fast_bits := 32.
Definition new_width (cm : cmode) (w : nat) : nat := match cm with CCompressed => w | _ => fast_bits end.
(** compress(): width(w) *)
Definition compress_to (w : nat) (a : list nat) : list nat := map (cap w) a.
Definition bits_of (n : nat) : nat := bits_forn (N.of_nat n).

(** ISAFromSA.hpp:37-39, from the [k]-th last position on *)
Fixpoint isa_loop (w : nat) (sa a : list nat) (i k : nat) : option (list nat) :=
  match k with
  | O => Some a
  | S k' => do s <- nth_error sa i; do a' <- put w a s i; isa_loop w sa a' (i + 1) k'
  end.
(** :24-46 *)
Definition isa_new (cm : cmode) (sa : list nat) : option (list nat) :=
  let n := length sa in
  let w := new_width cm (bits_of n) in
  do a <- isa_loop w sa (repeat 0 n) 0 n;
  Some (match cm with CDelayed => compress_to (bits_of n) a | _ => a end).

(** PhiFromSA.hpp:37-40 *)
Fixpoint phi_loop (w : nat) (sa a : list nat) (i prev k : nat) : option (list nat) :=
  match k with
  | O => Some a
  | S k' => do s <- nth_error sa i; do a' <- put w a s prev; phi_loop w sa a' (i + 1) s k'
  end.
(** :24-48 *)
Definition phi_new (cm : cmode) (sa : list nat) : option (list nat) :=
  let n := length sa in
  let w := new_width cm (bits_of n) in
  do s0 <- nth_error sa 0;
  do a <- phi_loop w sa (repeat 0 n) 1 s0 (n - 1);
  do sl <- nth_error sa (n - 1);
  do a <- put w a s0 sl;
  Some (match cm with CDelayed => compress_to (bits_of n) a | _ => a end).

(** PLCPFromPhi.hpp:40 the while loop; [None]: a character outside the text is compared *)
Fixpoint extend (fuel : nat) (text : list N) (i j l : nat) : option nat :=
  match fuel with
  | O => None
  | S f =>
    do a <- nth_error text (i + l);
    do b <- nth_error text (j + l);
    if (a =? b)%N then extend f text i j (l + 1) else Some l
  end.
(** :38-44 *)
Fixpoint plcp_loop (w : nat) (text : list N) (a : list nat) (i l mx k : nat) : option (list nat * nat) :=
  match k with
  | O => Some (a, mx)
  | S k' =>
    do phii <- nth_error a i;
    do l <- extend (length text + 1) text i phii l;
    do a <- put w a i l;
    plcp_loop w text a (i + 1) (l - 1) (Nat.max mx l) k'
  end.
(** :27-53; the phi array's width is 32 (plain) or bits_for(n) *)
Definition plcp_new (cm : cmode) (text : list N) (phi : list nat) : option (list nat * nat) :=
  let n := length text in
  let w := match cm with CPlain => fast_bits | _ => bits_of n end in
  do r <- plcp_loop w text phi 0 0 0 (n - 1);
  let (a, mx) := r in
  Some (match cm with CPlain => a | _ => compress_to (bits_of mx) a end, mx).

(** LCPFromPLCP.hpp:44-47 *)
Fixpoint lcp_loop (w : nat) (sa plcp a : list nat) (i k : nat) : option (list nat) :=
  match k with
  | O => Some a
  | S k' => do s <- nth_error sa i; do x <- nth_error plcp s; do a' <- put w a i x; lcp_loop w sa plcp a' (i + 1) k'
  end.
(** :27-54 *)
Definition lcp_new (cm : cmode) (sa plcp : list nat) (mx : nat) : option (list nat) :=
  let n := length sa in
  let w := new_width cm (bits_of mx) in
  do a <- put w (repeat 0 n) 0 0;
  do a <- lcp_loop w sa plcp a 1 (n - 1);
  Some (match cm with CDelayed => compress_to (bits_of mx) a | _ => a end).

(** ** SparseISA.hpp *)
(** :67-75 following one cycle; [k] counts *)
Fixpoint sp_walk1 (fuel : nat) (sa : list nat) (t i j k : nat) (v has : pvec) : option (pvec * pvec * nat) :=
  if j =? i then Some (v, has, k)
  else match fuel with
  | O => None
  | S f =>
    do has <- (if k mod t =? 0 then pv_set has j 1 else Some has);
    do v <- pv_set v j 1;
    do j <- nth_error sa j;
    sp_walk1 f sa t i j (k + 1) v has
  end.
(** :60-79 *)
Fixpoint sp_pass1 (m : nat) (sa : list nat) (t i : nat) (v has : pvec) : option (pvec * pvec) :=
  match m with
  | O => Some (v, has)
  | S m' =>
    do b <- pv_get v i;
    if (b =? 0)%N then
      do v <- pv_set v i 1;
      do j <- nth_error sa i;
      do q <- sp_walk1 (length sa) sa t i j 1 v has;
      let '(v, has, k) := q in
      do has <- (if t <? k then pv_set has i 1 else Some has);
      sp_pass1 m' sa t (i + 1) v has
    else sp_pass1 m' sa t (i + 1) v has
  end.
(** :88-95 *)
Fixpoint sp_walk2 (fuel : nat) (sa : list nat) (r : rankds) (has : pvec) (i j : nat) (v sc : pvec)
  : option (pvec * pvec * nat * nat) :=
  do b <- pv_get v j;
  if (b =? 0)%N then Some (v, sc, i, j)
  else match fuel with
  | O => None
  | S f =>
    do h <- pv_get has j;
    do q <- (if (h =? 0)%N then Some (sc, i)
             else do x <- rank1 r j; do sc <- pv_set sc (x - 1) (N.of_nat i); Some (sc, j));
    let '(sc, i) := q in
    do v <- pv_set v j 0;
    do j <- nth_error sa j;
    sp_walk2 f sa r has i j v sc
  end.
(** :84-103; the loop variable is set to the cycle's end *)
Fixpoint sp_pass2 (m : nat) (sa : list nat) (r : rankds) (has : pvec) (i : nat) (v sc : pvec) : option pvec :=
  if i <? length sa then
    match m with
    | O => None
    | S m' =>
      do b <- pv_get v i;
      if (b =? 0)%N then sp_pass2 m' sa r has (i + 1) v sc
      else
        do v <- pv_set v i 0;
        do j <- nth_error sa i;
        do q <- sp_walk2 (length sa) sa r has i j v sc;
        let '(v, sc, i, j) := q in
        do h <- pv_get has j;
        do sc <- (if (h =? 0)%N then Some sc else do x <- rank1 r j; pv_set sc (x - 1) (N.of_nat i));
        sp_pass2 m' sa r has (j + 1) v sc
    end
  else Some sc.
Record sparse := mk_sparse { sp_sa : list nat; sp_has : pvec; sp_rank : rankds; sp_cuts : pvec }.
(** :42-105; [t] = 0 divides by zero *)
Definition sparse_new (sa : list nat) (t : nat) : option sparse :=
  let n := length sa in
  if t =? 0 then None else
  do q <- sp_pass1 n sa t 0 (pv_sized n 1 true) (pv_sized n 1 true);
  let '(v, has) := q in
  do r <- rank_new has;
  do c <- rank1 r (n - 1);
  do sc <- pv_filled_width c 0 (bits_of n) false 64;
  do sc <- sp_pass2 n sa r has 0 v sc;
  Some (mk_sparse sa has r sc).
(** :108-121 operator[] *)
Fixpoint sp_find (fuel : nat) (d : sparse) (i j : nat) (s : bool) : option nat :=
  do x <- nth_error (sp_sa d) j;
  if x =? i then Some j
  else match fuel with
  | O => None
  | S f =>
    do h <- (if s then pv_get (sp_has d) j else Some 0%N);
    if (h =? 0)%N then sp_find f d i x s
    else do y <- rank1 (sp_rank d) j; do c <- pv_get (sp_cuts d) (y - 1); sp_find f d i (N.to_nat c) false
  end.
Definition sparse_get (d : sparse) (i : nat) : option nat := sp_find (2 * length (sp_sa d)) d i i true.

(** ** CompressedLCP.hpp *)
(** :42-48 *)
Definition encode_unary (x : nat) : list bool := repeat false x ++ [true].
(** :68-71 *)
Fixpoint clcp_rest (prev : nat) (plcp : list nat) : list bool :=
  match plcp with [] => [] | p :: r => encode_unary (p + 1 - prev) ++ clcp_rest p r end.
Definition clcp_bits (plcp : list nat) : list bool :=
  match plcp with [] => [] | p :: r => encode_unary (p + 1) ++ clcp_rest p r end.
(** m_lcp.emplace_back, bit by bit *)
Fixpoint push_bits (v : pvec) (bs : list bool) : option pvec :=
  match bs with [] => Some v | b :: bs' => do v' <- pv_push v (if b then 1 else 0)%N; push_bits v' bs' end.
Definition clcp_new (plcp : list nat) : option selectds :=
  do bv <- push_bits (pv_empty 1 true) (clcp_bits plcp); select_new true bv.
(** :81-84 *)
Definition clcp_get (sa : list nat) (d : selectds) (i : nat) : option nat :=
  do j <- nth_error sa i; do p <- select d (j + 1); Some (p - 2 * j - 1).

(** ** LCPSada.hpp; the bit vector and select structure are sdsl's: a list of bits and [sel1] *)
(** :19-31 construct_phi_array: the array of PhiFromSA in compressed mode *)
Definition sada_phi (sa : list nat) : option (list nat) := phi_new CCompressed sa.
(** :40-59 phi_algorithm *)
Definition sada_plcp (text : list N) (phi : list nat) : option (list nat) :=
  do r <- plcp_loop (bits_of (length text)) text phi 0 0 0 (length text - 1);
  put (bits_of (length text)) (fst r) (length text - 1) 0.
(** :155-159 the length *)
Fixpoint sada_len (prev : nat) (plcp : list nat) (len : nat) : nat :=
  match plcp with [] => len | p :: r => sada_len p r (len + (p + 1 - prev)) end.
(** :162-167 the bits *)
Fixpoint sada_fill (prev : nat) (plcp : list nat) (len : nat) (bv : list bool) : option (list bool) :=
  match plcp with
  | [] => Some bv
  | p :: r => let len := len + (p + 2 - prev) in
              if len <? length bv then sada_fill p r len (upd bv len true) else None
  end.
(** :153-171 construct_plcp_bitvector *)
Definition sada_bits (plcp : list nat) : option (list bool) :=
  match plcp with
  | [] => None
  | p :: r =>
    let bv := repeat false (sada_len p r p + length plcp) in
    if p <? length bv then sada_fill p r p (upd bv p true) else None
  end.
(** sdsl select: position of the [x]-th one *)
Fixpoint sel1 (bs : list bool) (x pos : nat) : option nat :=
  match bs with
  | [] => None
  | b :: bs' => if b then (if x =? 1 then Some pos else sel1 bs' (x - 1) (pos + 1)) else sel1 bs' x (pos + 1)
  end.
(** :77-81 operator[], :82-85 plcp *)
Definition sada_get (sa : list nat) (bs : list bool) (i : nat) : option nat :=
  if length sa =? 1 then Some 0
  else do idx <- nth_error sa i; do p <- sel1 bs (idx + 1) 0; Some (p - 2 * idx).
(** :115-150 LCPForwardIterator: block index, ones before it; sdsl::bits::cnt / sel on the
    64-bit chunks of the bit vector *)
Record lcpit := mk_it { it_idx : nat; it_block : nat; it_rank : nat }.
Definition chunk (bs : list bool) (i : nat) : list bool := firstn 64 (skipn (64 * i) bs).
Definition ones (bs : list bool) : nat := length (filter (fun b => b) bs).
Fixpoint it_seek (fuel : nat) (bs : list bool) (idx block rank : nat) : nat * nat :=
  match fuel with
  | O => (block, rank)
  | S f =>
    if block <? 1 + (length bs - 1) / 64 then
      let o := ones (chunk bs block) in
      if idx + 1 <=? rank + o then (block, rank) else it_seek f bs idx (block + 1) (rank + o)
    else (block, rank)
  end.
(** :127-142 next_select, :143-146 operator() *)
Definition it_value (bs : list bool) (it : lcpit) : option (nat * lcpit) :=
  let cs := 1 + (length bs - 1) / 64 in
  let (b, r) := it_seek (cs + 1) bs (it_idx it) (it_block it) (it_rank it) in
  do p <- (if b =? cs then Some (length bs)
           else do s <- sel1 (chunk bs b) (it_idx it + 1 - r) 0; Some (64 * b + s));
  Some (p - 2 * it_idx it, mk_it (it_idx it) b r).
(** :147-149 *)
Definition it_advance (it : lcpit) : lcpit := mk_it (it_idx it + 1) (it_block it) (it_rank it).
