(** Model of util/Hash.hpp: hash functions, size managers, probers and HashMap, and of the
    tries built on it (compressors/lz78/HashTrie.hpp, HashTriePlus.hpp).

    Keys and values are unsigned integers; a slot is empty when its value is [undef_id].
    [fuel] bounds the number of steps and the recursion depth: a loop or recursion that
    does not end has no fuel for which it returns; [None] also stands for an access
    outside of the arrays. *)
From Verif Require Import Base LZ Tries.
Local Open Scope N_scope.

Definition w64 (x : N) : N := x mod 2 ^ 64.

(** *** Hash functions *)
(** Hash.hpp:20-25, :27-32 VignaHasher, _VignaHasher *)
Definition vigna (x : N) : N :=
  let x := w64 (N.lxor x (N.shiftr x 30) * 13787848793156543929) in
  let x := w64 (N.lxor x (N.shiftr x 27) * 10723151780598845931) in
  N.lxor x (N.shiftr x 31).
(** Hash.hpp:42-45 KnuthHasher *)
Definition knuth (key : N) : N := w64 (key * 2654435769).
(** Hash.hpp:56-65 MixHasher *)
Definition mix (key : N) : N :=
  let key := w64 ((2 ^ 64 - 1 - key) + w64 (N.shiftl key 21)) in
  let key := N.lxor key (N.shiftr key 24) in
  let key := w64 (key + w64 (N.shiftl key 3) + w64 (N.shiftl key 8)) in
  let key := N.lxor key (N.shiftr key 14) in
  let key := w64 (key + w64 (N.shiftl key 2) + w64 (N.shiftl key 4)) in
  let key := N.lxor key (N.shiftr key 28) in
  w64 (key + w64 (N.shiftl key 31)).
(** Hash.hpp:74-76 NoopHasher *)
Definition noop (key : N) : N := key.

(** *** Size managers: the smallest size for a hint, and mod_tablesize(index, size, key, probe) *)
Record sizeman := mk_sizeman { sm_min : N -> N; sm_mod : N -> N -> N -> N -> N; sm_direct : bool }.
(** Hash.hpp:82-104 *)
Definition sm_pow2 : sizeman :=
  mk_sizeman (fun hint => w32 (2 ^ N.size (N.max hint 3)))
             (fun index ts _ _ => N.land index (w32 (ts + 2 ^ 32 - 1))) false.
(** Hash.hpp:108-132 *)
Definition sm_dir : sizeman :=
  mk_sizeman (fun hint => N.max hint 3)
             (fun _ ts key probe => w32 (N.shiftr (w64 (key + N.shiftl probe 64 / ts) * ts) 64)) true.
(** Hash.hpp:134-158 *)
Definition sm_noob : sizeman :=
  mk_sizeman (fun hint => N.max hint 3) (fun index ts _ _ => index mod ts) false.
(** Hash.hpp:183-218: the primes (those that fit len_t, and the first that does not) and
    std::lower_bound; the result is cast to len_t *)
Definition primes : list N :=
  [5; 11; 19; 37; 53; 97; 193; 389; 769; 1543; 3079; 6151; 12289; 24593; 49157; 98317; 196613;
   393241; 786433; 1572869; 3145739; 6291469; 12582917; 25165843; 50331653; 100663319; 201326611;
   402653189; 805306457; 1610612741; 3221225473; 4294967291; 8589934583].
Definition next_prime (n : N) : N :=
  match find (fun p => n <=? p) primes with Some p => p | None => 0 end.
(** Hash.hpp:161-176 *)
Definition sm_prime : sizeman :=
  mk_sizeman (fun hint => w32 (next_prime hint)) (fun index ts _ _ => index mod ts) false.

(** *** Probers: get(i, tablepos, init, size) *)
(** Hash.hpp:240-243, :256-258, :272-275 *)
Definition pr_quad (i pos init ts : N) : N := w32 (init + i * i).
Definition pr_gauss (i pos init ts : N) : N := w32 (pos + i).
Definition pr_linear (i pos init ts : N) : N := w32 (pos + 1).

(** the template arguments of HashMap *)
Record hconf := mk_hconf { hc_hash : N -> N; hc_probe : N -> N -> N -> N -> N; hc_sm : sizeman }.

(** *** Floating point *)
(** Rounding an integer to a float's 24 bits, to nearest, ties to even *)
Definition rnd24 (x : N) : N :=
  let b := N.size x - 24 in
  let q := N.shiftr x b in
  let r := x - N.shiftl q b in
  let half := N.shiftl 1 b in
  let q' := if (half <? 2 * r) || ((half =? 2 * r) && N.odd q) then q + 1 else q in
  N.shiftl q' b.
(** Load factors (floats) in units of 2^-30 *)
Definition lf_95 : N := 15938355 * 2 ^ 6.
Definition lf_30 : N := 10066330 * 2 ^ 5.
(** Hash.hpp:534: table_size()*max_load_factor() < m_entries, in single precision *)
Definition over (size lf e : N) : bool := rnd24 (rnd24 size * lf) <? rnd24 e * 2 ^ 30.

(** util.hpp:515-520 lz78_expected_number_of_remaining_elements *)
Definition expected_remaining (z n rem : N) : N :=
  if rem * 2 <? n then z * rem / (n - rem)
  else rem * 3 / (if rem =? 0 then 1 else N.size rem).
(** Hash.hpp:537-547: the new load factor and the hint for reserve.  The double
    computations /0.95, *1.1 and *2.0*0.95 are done exactly: their rounding errors are too small to
    change the truncated results for sizes below 2^40. *)
Definition grow (direct : bool) (size lf e n rem : N) : N * N :=
  let x := expected_remaining e n rem in
  let es := if direct then (2 * e + 3 * x) * 10 / 19 else (e + x) * 20 / 19 in
  let es := N.max es (11 * size / 10) in
  if 10 * es <? 19 * size then (lf_95, w32 es) else (lf, w32 (2 * (size - 1))).

(** *** HashMap *)
(** Hash.hpp:378-392 *)
Record hmap := mk_hmap { h_size : N; h_keys : list N; h_vals : list N; h_entries : N; h_lf : N }.
(** a table of empty slots (Hash.hpp:419-432 constructor, :466-487 reserve) *)
Definition ht_fresh (size lf : N) : hmap :=
  mk_hmap size (repeat 0 (N.to_nat size)) (repeat undef_id (N.to_nat size)) 0 lf.
(** Hash.hpp:419-432: initial_size = 4 *)
Definition ht_new (lf : N) : hmap := ht_fresh 4 lf.

(** Hash.hpp:528-580: the loop over the table positions, until the key or an empty slot is
    found; result: the position, and whether it holds the key *)
Fixpoint probe_loop (fuel : nat) (c : hconf) (m : hmap) (k h init pos i : N) : option (N * bool) :=
  match fuel with
  | O => None
  | S fuel =>
      do v <- nth_error (h_vals m) (N.to_nat pos);
      if v =? undef_id then Some (pos, false)
      else do k' <- nth_error (h_keys m) (N.to_nat pos);
           if k' =? k then Some (pos, true)
           else let i := w32 (i + 1) in
                probe_loop fuel c m k h init
                  (sm_mod (hc_sm c) (hc_probe c i pos init (h_size m)) (h_size m) h i) i
  end.
(** Hash.hpp:477-481: the loop of reserve that inserts the old slots *)
Fixpoint rehash (ins : hmap -> N -> N -> option (hmap * (N * bool))) (slots : list (N * N)) (m : hmap) : option hmap :=
  match slots with
  | [] => Some m
  | (k, v) :: slots => if v =? undef_id then rehash ins slots m
                       else do (m, _) <- ins m k v; rehash ins slots m
  end.
(** Hash.hpp:462-491 reserve *)
Definition ht_reserve_with (ins : hmap -> N -> N -> option (hmap * (N * bool))) (c : hconf) (m : hmap) (hint : N) : option hmap :=
  let size := sm_min (hc_sm c) hint in
  if 0 <? h_entries m then rehash ins (combine (h_keys m) (h_vals m)) (ht_fresh size (h_lf m))
  else Some (ht_fresh size (h_lf m)).
(** Hash.hpp:518-580 insert, with the text length [n] and the number [rem] of
    remaining characters; result: the value behind the returned iterator and whether it was inserted *)
Fixpoint ht_insert (fuel : nat) (c : hconf) (n rem : N) (m : hmap) (k v : N) : option (hmap * (N * bool)) :=
  match fuel with
  | O => None
  | S fuel =>
      let h := hc_hash c k in
      let init := sm_mod (hc_sm c) h (h_size m) h 0 in
      do (pos, found) <- probe_loop fuel c m k h init init 0;
      if found then do x <- nth_error (h_vals m) (N.to_nat pos); Some (m, (x, false))
      else
        let m := mk_hmap (h_size m) (upd (h_keys m) (N.to_nat pos) k) (upd (h_vals m) (N.to_nat pos) v)
                         (w32 (h_entries m + 1)) (h_lf m) in
        if over (h_size m) (h_lf m) (h_entries m) then
          let '(lf, hint) := grow (sm_direct (hc_sm c)) (h_size m) (h_lf m) (h_entries m) n rem in
          do m <- ht_reserve_with (ht_insert fuel c n rem) c
                    (mk_hmap (h_size m) (h_keys m) (h_vals m) (h_entries m) lf) hint;
          do (m, (x, _)) <- ht_insert fuel c n rem m k v;
          Some (m, (x, true))
        else Some (m, (v, true))
  end.
Definition ht_reserve (fuel : nat) (c : hconf) (n rem : N) (m : hmap) (hint : N) : option hmap :=
  ht_reserve_with (ht_insert fuel c n rem) c m hint.

(** *** A user's calls *)
Inductive hop := HInsert (k v rem : N) | HReserve (hint rem : N) | HEntries.
Inductive hans := AInsert (x : N) (isnew : bool) | ADone | AEntries (n : N).
Definition ht_do (fuel : nat) (c : hconf) (n : N) (m : hmap) (o : hop) : option (hmap * hans) :=
  match o with
  | HInsert k v rem => do (m, (x, b)) <- ht_insert fuel c n rem m k v; Some (m, AInsert x b)
  | HReserve hint rem => do m <- ht_reserve fuel c n rem m hint; Some (m, ADone)
  | HEntries => Some (m, AEntries (h_entries m))
  end.
Fixpoint ht_run (fuel : nat) (c : hconf) (n : N) (m : hmap) (ops : list hop) : option (list hans) :=
  match ops with
  | [] => Some []
  | o :: ops => do (m, a) <- ht_do fuel c n m o; do l <- ht_run fuel c n m ops; Some (a :: l)
  end.

(** *** The tries on top *)
(** HashTrie.hpp:49-57 add_rootnode for the letters [cs] *)
Fixpoint ht_roots (fuel : nat) (c : hconf) (n rem : N) (cs : list N) (m : hmap) : option hmap :=
  match cs with
  | [] => Some m
  | a :: cs => do (m, _) <- ht_insert fuel c n rem m (create_node 0 a) (h_entries m); ht_roots fuel c n rem cs m
  end.
(** HashTrie.hpp:68-82 find_or_insert; the compressor decrements the number of remaining characters
    before each call (LZ78Compressor.hpp:98, LZWCompressor.hpp:71) *)
Definition ht_find (fuel : nat) (c : hconf) (n : N) (st : hmap * N) (parent ch : N) : option (N * bool * (hmap * N)) :=
  let '(m, rem) := st in
  let rem := rem - 1 in
  let newleaf := h_entries m in
  do (m, (x, b)) <- ht_insert fuel c n rem m (create_node parent ch) newleaf;
  Some (if b then newleaf else x, b, (m, rem)).
(** HashTrie.hpp:29-38: constructor, with the load factor [lf] and the reserve hint
    [res] (LZ78Compressor.hpp:66-80, LZWCompressor.hpp:41-52); clear() does nothing *)
Definition table_trie (fuel : nat) (c : hconf) (n lf res : N) : trie :=
  mk_trie (hmap * N)
    (fun k => do m <- (if 0 <? res then ht_reserve fuel c n n (ht_new lf) res else Some (ht_new lf));
              do m <- ht_roots fuel c n n (map N.of_nat (seq 0 (N.to_nat k))) m; Some (m, n))
    (fun k '(m, rem) => do m <- ht_roots fuel c n rem (map N.of_nat (seq 0 (N.to_nat k))) m; Some (m, rem))
    (fun _ c => c) (ht_find fuel c n) (fun '(m, _) => h_entries m).

(** HashTriePlus.hpp: the second table is in use once it is not empty *)
Definition plus_size (m1 m2 : hmap) : N := if h_entries m2 =? 0 then h_entries m1 else h_entries m2.
(** Hash.hpp:434-454 incorporate: the arrays of [m1] with the load factor of [m2], then reserve *)
Definition ht_incorporate (fuel : nat) (c : hconf) (n rem : N) (m2 m1 : hmap) (hint : N) : option hmap :=
  ht_reserve fuel c n rem (mk_hmap (h_size m1) (h_keys m1) (h_vals m1) (h_entries m1) (h_lf m2)) hint.
(** HashTriePlus.hpp:69-94 find_or_insert *)
Definition plus_find (fuel : nat) (c1 c2 : hconf) (n : N) (st : hmap * hmap * N) (parent ch : N)
  : option (N * bool * (hmap * hmap * N)) :=
  let '(m1, m2, rem) := st in
  let rem := rem - 1 in
  let newleaf := plus_size m1 m2 in
  if negb (h_entries m2 =? 0) then
    do (m2, (x, b)) <- ht_insert fuel c2 n rem m2 (create_node parent ch) newleaf;
    Some (if b then newleaf else x, b, (m1, m2, rem))
  else
    do (m1, (x, b)) <- ht_insert fuel c1 n rem m1 (create_node parent ch) newleaf;
    if b then
      if over (h_size m1) (h_lf m1) (w32 (h_entries m1 + 1)) then
        let es := (h_entries m1 + 1 + expected_remaining (h_entries m1) n rem) * 20 / 19 in
        if 10 * es <? 19 * h_size m1 then
          do m2 <- ht_incorporate fuel c2 n rem m2 m1 (w32 es);
          Some (newleaf, true, (m1, m2, rem))
        else Some (newleaf, true, (m1, m2, rem))
      else Some (newleaf, true, (m1, m2, rem))
    else Some (x, false, (m1, m2, rem)).
(** HashTriePlus.hpp:27-38 constructor, :55-59 add_rootnode (the first table is always the one
    with linear probing and power-of-two sizes) *)
Definition plus_conf (h : N -> N) : hconf := mk_hconf h pr_linear sm_pow2.
Definition plus_trie (fuel : nat) (h : N -> N) (sm : sizeman) (n lf res : N) : trie :=
  let c1 := plus_conf h in
  mk_trie (hmap * hmap * N)
    (fun k => do m <- (if 0 <? res then ht_reserve fuel c1 n n (ht_new lf) res else Some (ht_new lf));
              do m <- ht_roots fuel c1 n n (map N.of_nat (seq 0 (N.to_nat k))) m; Some (m, ht_new lf_95, n))
    (fun k '(m, m2, rem) =>
       if h_entries m2 =? 0 then
         do m <- ht_roots fuel c1 n rem (map N.of_nat (seq 0 (N.to_nat k))) m; Some (m, m2, rem)
       else None)
    (fun _ c => c) (plus_find fuel c1 (mk_hconf h pr_linear sm) n) (fun '(m, m2, _) => plus_size m m2).
