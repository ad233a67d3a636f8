(** Model of util/compact_sparse_hash.hpp: a hash table with quotienting, linear
    probing and sparse buckets of 64 slots.  Values are numbers (a trivially copyable
    val_t: moving is copying).  Key widths above 64 are not modelled.  [None]: an
    access outside of m_buckets or of a bucket, or a loop that would not end. *)
From Verif Require Import Base.

(** ** :30-44 compact_hashfn; compact_reverse_hashfn is the same function *)
Definition compact_hashfn (x : N) (w : nat) : N :=
  let j := N.of_nat (w / 2 + 1) in
  (* 1ull << (w - 1) << 1, minus 1 *)
  let mask := w64 (w64 (2 ^ N.of_nat w) + 2 ^ 64 - 1) in
  N.land (N.lxor x (N.land (w64 (N.shiftl x j)) mask)) mask.

(** ** Bucket (:113-275): the bit vector and the elements (quotient, value) of its set
    bits in ascending order.  The layout in memory is left out. *)
Definition bucket := (N * list (N * N))%type.
(** __builtin_popcountll of the bits below i *)
Definition bits_below (bv : N) (i : nat) : nat := length (filter (fun j => N.testbit bv (N.of_nat j)) (seq 0 i)).

(** :61-88, :331-345: m_sizing as capacity_log2 and size *)
Record tbl := mk_tbl { t_log : nat; t_size : nat; t_width : nat; t_cv : list (bool * bool); t_bs : list bucket }.
Definition cap (t : tbl) : nat := 2 ^ t_log t.
(** :437-441 real_width, :819-821 quotient_width *)
Definition real_width (t : tbl) : nat := Nat.max (t_log t + 1) (t_width t).
Definition quot_width (t : tbl) : nat := real_width t - t_log t.
(** :348-362 the constructor; capacity 2^log.  The number of buckets is
    (m_sizing.size() + 63) << 6, and size() is 0 there. *)
Definition n_buckets : nat := 4032.
Definition new_tbl (log width : nat) : tbl := mk_tbl log 0 width (repeat (false, false) (2 ^ log)) (repeat (0%N, []) n_buckets).

(** :396-412 *)
Definition get_v (t : tbl) (p : nat) : option bool := do x <- nth_error (t_cv t) p; Some (fst x).
Definition get_c (t : tbl) (p : nat) : option bool := do x <- nth_error (t_cv t) p; Some (snd x).
Definition set_v (t : tbl) (p : nat) (b : bool) : option tbl :=
  do x <- nth_error (t_cv t) p; Some (mk_tbl (t_log t) (t_size t) (t_width t) (upd (t_cv t) p (b, snd x)) (t_bs t)).
Definition set_c (t : tbl) (p : nat) (b : bool) : option tbl :=
  do x <- nth_error (t_cv t) p; Some (mk_tbl (t_log t) (t_size t) (t_width t) (upd (t_cv t) p (fst x, b)) (t_bs t)).
Definition set_bs (t : tbl) (bs : list bucket) : tbl := mk_tbl (t_log t) (t_size t) (t_width t) (t_cv t) bs.
Definition inc_size (t : tbl) : tbl := mk_tbl (t_log t) (S (t_size t)) (t_width t) (t_cv t) (t_bs t).

(** :732-741: the mask is capacity - 1 *)
Definition mod_add (t : tbl) (p : nat) : nat := (p + 1) mod cap t.
Definition mod_sub (t : tbl) (p : nat) : nat := (p + cap t - 1) mod cap t.

(** :443-482 *)
Definition decompose (t : tbl) (key : N) : nat * N :=
  let h := compact_hashfn key (real_width t) in
  (N.to_nat (h mod 2 ^ N.of_nat (t_log t)), N.shiftr h (N.of_nat (t_log t)))%N.
Definition compose (t : tbl) (home : nat) (q : N) : N :=
  compact_hashfn (N.lor (w64 (N.shiftl q (N.of_nat (t_log t)))) (N.of_nat home)) (real_width t).

(** ** :1161-1199 SparsePos *)
Record spos := mk_sp { sp_b : nat; sp_bit : nat; sp_exists : bool; sp_off : nat }.
Definition sparse_pos (bs : list bucket) (pos : nat) : option spos :=
  do bk <- nth_error bs (pos / 64);
  Some (mk_sp (pos / 64) (pos mod 64) (N.testbit (fst bk) (N.of_nat (pos mod 64))) (bits_below (fst bk) (pos mod 64))).
Definition sparse_exists (bs : list bucket) (pos : nat) : option bool := do p <- sparse_pos bs pos; Some (sp_exists p).
(** a place in the table: bucket and offset *)
Definition loc := (nat * nat)%type.
Definition get_at (bs : list bucket) (l : loc) : option (N * N) := do bk <- nth_error bs (fst l); nth_error (snd bk) (snd l).
Definition put_at (bs : list bucket) (l : loc) (e : N * N) : option (list bucket) :=
  do bk <- nth_error bs (fst l);
  if snd l <? length (snd bk) then Some (upd bs (fst l) (fst bk, upd (snd bk) (snd l) e)) else None.
Definition sp_loc (p : spos) : loc := (sp_b p, sp_off p).
(** :1201-1211 *)
Definition sparse_get_at (bs : list bucket) (pos : nat) : option (N * N) := do p <- sparse_pos bs pos; get_at bs (sp_loc p).

(** :965-1009 sparse_set_at_empty_handler: the element is appended and then rotated to
    its offset (:96-107, :262-269).  A quotient is stored in [qw] bits. *)
Definition trunc_q (qw : nat) (q : N) : N := (q mod 2 ^ N.of_nat qw)%N.
Definition set_at_empty (qw : nat) (bs : list bucket) (pos : nat) (q v : N) : option (list bucket * loc) :=
  do p <- sparse_pos bs pos;
  if sp_exists p then None
  else
    do bk <- nth_error bs (sp_b p);
    Some (upd bs (sp_b p) (N.lor (fst bk) (2 ^ N.of_nat (sp_bit p)),
                           firstn (sp_off p) (snd bk) ++ (trunc_q qw q, v) :: skipn (sp_off p) (snd bk)), sp_loc p).

(** ** :1019-1113 sparse_shift *)
(** :1054-1063: the nearest non-empty bucket below *)
Fixpoint prev_bucket (bs : list bucket) (b : nat) : option nat :=
  match b with
  | O => None
  | S b => do bk <- nth_error bs b; if (fst bk =? 0)%N then prev_bucket bs b else Some b
  end.
Definition it_dec (bs : list bucket) (i : loc) : option loc :=
  match snd i with
  | S o => Some (fst i, o)
  | O => do b <- prev_bucket bs (fst i); do bk <- nth_error bs b; Some (b, bits_below (fst bk) 64 - 1)
  end.
Definition loc_eqb (a b : loc) : bool := (fst a =? fst b) && (snd a =? snd b).
(** :1089-1100 *)
Fixpoint shift_loop (fuel : nat) (bs : list bucket) (src dst from : loc) : option (list bucket) :=
  match fuel with
  | O => None
  | S fuel =>
      if loc_eqb src from then Some bs
      else
        do src <- it_dec bs src;
        do dst <- it_dec bs dst;
        do e <- get_at bs src;
        do bs <- put_at bs dst e;
        shift_loop fuel bs src dst from
  end.
(** gives the buckets, the element pushed out and the position of [from] *)
Definition sparse_shift (fuel qw : nat) (bs : list bucket) (from to : nat) (q v : N) : option (list bucket * (N * N) * loc) :=
  do from_loc <- sparse_pos bs from;
  (* to - 1 is a huge number if to = 0: no such bucket *)
  if to =? 0 then None
  else
    do last <- sparse_pos bs (to - 1);
    do dst <- sparse_pos bs to;
    do tmp <- get_at bs (sp_loc last);
    do bs <- shift_loop fuel bs (sp_loc last) (sp_loc dst) (sp_loc from_loc);
    do bs <- put_at bs (sp_loc from_loc) (trunc_q qw q, v);
    Some (bs, tmp, sp_loc from_loc).

(** :1115-1159 shift_insert_sparse_handler; the address given to the handler is that of
    [from], as it was before the last insertion *)
Definition shift_insert_sparse (t : tbl) (from to : nat) (q v : N) : option (list bucket * loc) :=
  let n := cap t in let qw := quot_width t in
  do (bs, e, l) <-
    (if to <? from then
       do (bs, e, l) <- sparse_shift (S n) qw (t_bs t) from n q v;
       do (bs, e, _) <- sparse_shift (S n) qw bs 0 to (fst e) (snd e);
       Some (bs, e, l)
     else sparse_shift (S n) qw (t_bs t) from to q v);
  do (bs, _) <- set_at_empty qw bs to (fst e) (snd e);
  Some (bs, l).

(** :484-501 shift_insert_handler *)
Fixpoint shift_c (fuel : nat) (t : tbl) (from i : nat) : option tbl :=
  if i =? from then Some t
  else match fuel with
  | O => None
  | S fuel => do c <- get_c t (mod_sub t i); do t <- set_c t i c; shift_c fuel t from (mod_sub t i)
  end.
Definition shift_insert (t : tbl) (from to : nat) (q v : N) : option (tbl * loc) :=
  do t <- shift_c (cap t) t from to;
  do (bs, l) <- shift_insert_sparse t from to q v;
  do t <- set_c (set_bs t bs) from false;
  Some (t, l).

(** ** :503-543 search_existing_group *)
(** :514-526: cursor and v_counter *)
Fixpoint seek_end (fuel : nat) (t : tbl) (cursor vs : nat) : option (nat * nat) :=
  match fuel with
  | O => None
  | S fuel =>
      do e <- sparse_exists (t_bs t) cursor;
      if e then do v <- get_v t cursor; seek_end fuel t (mod_add t cursor) (vs + Nat.b2n v) else Some (cursor, vs)
  end.
(** :528-541: back until the counter is [stop] *)
Fixpoint seek_back (fuel : nat) (t : tbl) (stop cursor cs : nat) : option nat :=
  if cs =? stop then Some cursor
  else match fuel with
  | O => None
  | S fuel => do c <- get_c t (mod_sub t cursor); seek_back fuel t stop (mod_sub t cursor) (cs - Nat.b2n c)
  end.
Record group := mk_group { g_start : nat; g_end : nat; g_term : nat }.
Definition search_group (t : tbl) (home : nat) : option group :=
  do (term, vs) <- seek_end (S (cap t)) t home 0;
  do ge <- seek_back (S (cap t)) t 1 term vs;
  do gs <- seek_back (S (cap t)) t 0 ge 1;
  Some (mk_group gs ge term).
(** :545-554 search in a group: the place of the element *)
Fixpoint search_in (fuel : nat) (t : tbl) (i stop : nat) (q : N) : option (option loc) :=
  if i =? stop then Some None
  else match fuel with
  | O => None
  | S fuel =>
      do p <- sparse_pos (t_bs t) i;
      do e <- get_at (t_bs t) (sp_loc p);
      if (fst e =? q)%N then Some (Some (sp_loc p)) else search_in fuel t (mod_add t i) stop q
  end.
(** :556-562 search by key *)
Definition search (t : tbl) (key : N) : option (option loc) :=
  let (home, q) := decompose t key in
  do v <- get_v t home;
  if v then do g <- search_group t home; search_in (cap t) t (g_start g) (g_end g) q else Some None.
(** the value found *)
Definition lookup (t : tbl) (key : N) : option (option N) :=
  do r <- search t key;
  match r with None => Some None | Some l => do e <- get_at (t_bs t) l; Some (Some (snd e)) end.

(** ** :652-730 insert_after, insert_handler *)
Definition insert_after (t : tbl) (g : group) (q v : N) : option (tbl * loc) :=
  do e <- sparse_exists (t_bs t) (g_end g);
  if e then shift_insert t (g_end g) (g_term g) q v
  else do (bs, l) <- set_at_empty (quot_width t) (t_bs t) (g_end g) q v; Some (set_bs t bs, l).
(** insert_handler without grow_if_needed.  [v]: the value of a new element.  The place
    is the one told to the handler: on_new().new_location or on_existing. *)
Definition insert_core (t : tbl) (key v : N) : option (tbl * loc) :=
  let (home, q) := decompose t key in
  do e <- sparse_exists (t_bs t) home;
  if e then
    do gv <- get_v t home;
    if gv then
      do g <- search_group t home;
      do r <- search_in (cap t) t (g_start g) (g_end g) q;
      match r with
      | Some l => Some (t, l)
      | None => do (t, l) <- insert_after t g q v; Some (inc_size t, l)
      end
    else
      do t <- set_v t home true;
      do g <- search_group t home;
      do (t, l) <- insert_after t g q v;
      do t <- set_c t (g_end g) true;
      Some (inc_size t, l)
  else
    do (bs, l) <- set_at_empty (quot_width t) (t_bs t) home q v;
    do t <- set_v (set_bs t bs) home true;
    do t <- set_c t home true;
    Some (inc_size t, l).

(** ** :743-817 iter_all_t *)
Record iter := mk_iter { i_i : nat; i_start : nat; i_home : nat; i_full : bool }.
(** :753-772 the constructor *)
Fixpoint first_empty (fuel : nat) (bs : list bucket) (i : nat) : option nat :=
  match fuel with
  | O => None
  | S fuel => do e <- sparse_exists bs i; if e then first_empty fuel bs (S i) else Some i
  end.
Definition iter_begin (t : tbl) : option iter :=
  do i <- first_empty (S (cap t)) (t_bs t) 0; Some (mk_iter (mod_add t i) i 0 false).
(** :777-789: true if a full slot was found *)
Fixpoint skip_empty (fuel : nat) (t : tbl) (it : iter) : option (iter * bool) :=
  match fuel with
  | O => None
  | S fuel =>
      do e <- sparse_exists (t_bs t) (i_i it);
      if e then Some (mk_iter (i_i it) (i_start it) (mod_sub t (i_i it)) true, true)
      else if i_i it =? i_start it then Some (it, false)
      else skip_empty fuel t (mk_iter (mod_add t (i_i it)) (i_start it) (i_home it) false)
  end.
(** :802-806 *)
Fixpoint next_v (fuel : nat) (t : tbl) (a : nat) : option nat :=
  match fuel with
  | O => None
  | S fuel => do v <- get_v t a; if v then Some a else next_v fuel t (mod_add t a)
  end.
(** :774-816 next: the slot and its initial address *)
Definition iter_next (t : tbl) (it : iter) : option (iter * option (nat * nat)) :=
  do e <- (if i_full it then sparse_exists (t_bs t) (i_i it) else Some false);
  do (it, found) <- (if e then Some (it, true) else skip_empty (S (cap t)) t it);
  if found then
    do c <- get_c t (i_i it);
    do home <- (if c then next_v (S (cap t)) t (mod_add t (i_home it)) else Some (i_home it));
    Some (mk_iter (mod_add t (i_i it)) (i_start it) home true, Some (home, i_i it))
  else Some (it, None).

(** ** :823-882 grow_if_needed *)
Definition needs_capacity (t : tbl) : bool := cap t / 2 <=? t_size t + 1.
Definition needs_realloc (t : tbl) (w : nat) : bool := needs_capacity t || negb (w =? t_width t).
(** :850-876.  [drop]: start_of_bucket and bucket; [t]: the old table.  The insertion into
    the new table may not need another reallocation (the recursion is not modelled). *)
Fixpoint grow_loop (fuel : nat) (t : tbl) (it : iter) (drop : option nat) (nt : tbl) : option tbl :=
  match fuel with
  | O => None
  | S fuel =>
      do (it, r) <- iter_next t it;
      match r with
      | None => Some nt
      | Some (home, i) =>
          do p <- sparse_pos (t_bs t) i;
          let '(t, drop) :=
            if sp_off p =? 0 then
              (match drop with Some b => set_bs t (upd (t_bs t) b (0%N, [])) | None => t end, Some (sp_b p))
            else (t, drop) in
          do e <- get_at (t_bs t) (sp_loc p);
          if needs_realloc nt (t_width nt) then None
          else do (nt, _) <- insert_core nt (compose t home (fst e)) (snd e);
               grow_loop fuel t it drop nt
      end
  end.
Definition grow (t : tbl) (w : nat) : option tbl :=
  if needs_realloc t w then
    do it <- iter_begin t;
    grow_loop (S (cap t)) t it None (new_tbl (if needs_capacity t then S (t_log t) else t_log t) w)
  else Some t.

(** ** :567-592 the interface *)
(** insert(key, value, key_width): on an existing key the handler moves the stored value
    into its argument (:617-619), the table keeps it *)
Definition insert (t : tbl) (key v : N) (w : nat) : option tbl :=
  do t <- grow t w; do (t, _) <- insert_core t key v; Some t.
(** index(key, key_width) *)
Definition index (t : tbl) (key : N) (w : nat) : option (tbl * loc) :=
  do t <- grow t w; insert_core t key 0.
(** index(key, key_width) = v *)
Definition assign (t : tbl) (key v : N) (w : nat) : option tbl :=
  do (t, l) <- index t key w;
  do e <- get_at (t_bs t) l;
  do bs <- put_at (t_bs t) l (fst e, v);
  Some (set_bs t bs).
