(** Models of the priority queues over LCP entries:
    compressors/lcpcomp/MaxLCPSuffixList.hpp and ds/ArrayMaxHeap.hpp; and boost's pairing heap
    as BoostHeap.hpp uses it.

    The queues hold a pointer to the key array; here the key array is a component.
    The integer vectors are wide enough for every value stored in them (bits_for(undef),
    bits_for(array_size-1); IntVec.v models the packing), so they are lists of [nat].
    Access outside an array is [None]. *)
From Verif Require Import Base LZSS Strategies.
Local Open Scope nat_scope.

Definition put {A} (a : list A) (i : nat) (x : A) : option (list A) :=
  if i <? length a then Some (upd a i x) else None.

(** ** MaxLCPSuffixList *)
(** MaxLCPSuffixList.hpp:17-37; m_undef is the number of keys *)
Record msl := mk_msl {
  l_key : list nat; l_first : nat; l_last : nat;
  l_prev : list nat; l_next : list nat; l_index : list nat; l_in : list bool; l_size : nat }.
Definition l_undef (q : msl) : nat := length (l_key q).

(** :40-50 *)
Fixpoint lookup_index (index : list nat) (undef lcp : nat) : option nat :=
  match lcp with
  | O => Some undef
  | S k => do r <- nth_error index k; if r =? undef then lookup_index index undef k else Some r
  end.
(** index [lcp - 1]; lcp = 0 is outside *)
Definition slot (lcp : nat) : option nat := match lcp with O => None | S k => Some k end.

(** :80-122 *)
Definition msl_insert (q : msl) (i : nat) : option msl :=
  let u := l_undef q in
  do lcp <- nth_error (l_key q) i;
  do pos <- lookup_index (l_index q) u lcp;
  do r <- (if pos =? u then
             do nx <- (if l_last q =? u then Some (l_next q) else put (l_next q) (l_last q) i);
             do nx <- put nx i u;
             do pv <- put (l_prev q) i (l_last q);
             Some (l_first q, i, pv, nx)
           else
             do prev <- nth_error (l_prev q) pos;
             do pv <- put (l_prev q) i prev;
             do nx <- put (l_next q) i pos;
             do fn <- (if prev =? u then Some (i, nx) else do nx <- put nx prev i; Some (l_first q, nx));
             do pv <- put pv pos i;
             Some (fst fn, l_last q, pv, snd fn));
  let '(first, last, pv, nx) := r in
  do k <- slot lcp;
  do ix <- put (l_index q) k i;
  do has <- put (l_in q) i true;
  Some (mk_msl (l_key q) (if first =? u then i else first) last pv nx ix has (l_size q + 1)).
(** :127-158 *)
Definition msl_remove (q : msl) (i : nat) : option msl :=
  let u := l_undef q in
  do p <- nth_error (l_prev q) i;
  do x <- nth_error (l_next q) i;
  do fn <- (if p =? u then Some (x, l_next q) else do nx <- put (l_next q) p x; Some (l_first q, nx));
  let (first, nx) := (fn : nat * list nat) in
  do lp <- (if x =? u then Some (p, l_prev q) else do pv <- put (l_prev q) x p; Some (l_last q, pv));
  let (last, pv) := (lp : nat * list nat) in
  do lcp <- nth_error (l_key q) i;
  do k <- slot lcp;
  do cur <- nth_error (l_index q) k;
  do ix <- (if cur =? i then
              do same <- (if x =? u then Some false else do v <- nth_error (l_key q) x; Some (v =? lcp));
              put (l_index q) k (if same : bool then x else u)
            else Some (l_index q));
  do has <- put (l_in q) i false;
  Some (mk_msl (l_key q) first last pv nx ix has (l_size q - 1)).
(** :163-167 *)
Definition msl_decrease (q : msl) (i v : nat) : option msl :=
  do q <- msl_remove q i;
  do key <- put (l_key q) i v;
  msl_insert (mk_msl key (l_first q) (l_last q) (l_prev q) (l_next q) (l_index q) (l_in q) (l_size q)) i.
(** :70-75 *)
Fixpoint msl_fill (q : msl) (min_lcp i m : nat) : option msl :=
  match m with
  | O => Some q
  | S m' =>
    do v <- nth_error (l_key q) i;
    do q <- (if min_lcp <=? v then msl_insert q i else Some q);
    msl_fill q min_lcp (i + 1) m'
  end.
(** :54-76 *)
Definition msl_new (lcp : list nat) (min_lcp max_lcp : nat) : option msl :=
  let n := length lcp in
  msl_fill (mk_msl lcp n n (repeat n n) (repeat n n) (repeat n max_lcp) (repeat false n) 0) min_lcp 1 (n - 1).
Definition msl_ops : queue msl := {|
  q_size := l_size;                                     (* :175-177 *)
  q_top := fun q => Some (l_first q);                   (* :185-188 *)
  q_has := fun q i => nth_error (l_in q) i;             (* :170-172 *)
  q_key := fun q i => nth_error (l_key q) i;
  q_remove := msl_remove;
  q_decrease := msl_decrease |}.
(** MaxLCPStrategy.hpp:36-100; each turn removes an entry, so n turns suffice *)
Definition max_lcp_strategy (thr : nat) (sa isa lcp : list nat) (mx : nat) : option (list factor) :=
  do q <- msl_new lcp thr mx;
  queue_loop msl_ops (length sa) sa isa thr q.

(** ** ArrayMaxHeap *)
(** ArrayMaxHeap.hpp:38-49; m_undef is the length of m_heap *)
Record heap := mk_heap { h_key : list nat; h_size : nat; h_heap : list nat; h_pos : list nat }.
Definition h_undef (h : heap) : nat := length (h_heap h).
(** :26-36 *)
Definition lc (i : nat) := 2 * i + 1.
Definition rc (i : nat) := 2 * i + 2.
Definition parent (i : nat) := (i - 1) / 2.
(** :51-54 *)
Definition hput (h : heap) (p i : nat) : option heap :=
  do a <- put (h_heap h) p i;
  do b <- put (h_pos h) i p;
  Some (mk_heap (h_key h) (h_size h) a b).
(** :65-71 *)
Definition heap_new (key : list nat) (heap_size : nat) : heap :=
  mk_heap key 0 (repeat 0 heap_size) (repeat heap_size (length key)).
(** :84-87; [fuel] > pos suffices *)
Fixpoint sift_up (fuel : nat) (h : heap) (pos lcp_i : nat) : option (heap * nat) :=
  match pos with
  | O => Some (h, 0)
  | _ =>
    match fuel with
    | O => None
    | S f =>
      do x <- nth_error (h_heap h) (parent pos);
      do v <- nth_error (h_key h) x;
      if v <? lcp_i then do h <- hput h pos x; sift_up f h (parent pos) lcp_i else Some (h, pos)
    end
  end.
(** :77-95 *)
Definition heap_insert (h : heap) (i : nat) : option heap :=
  do lcp_i <- nth_error (h_key h) i;
  do r <- sift_up (h_size h + 1) (mk_heap (h_key h) (h_size h + 1) (h_heap h) (h_pos h)) (h_size h) lcp_i;
  hput (fst r) (snd r) i.
Inductive dir := NONE | LEFT | RIGHT.
(** :103-104 *)
Definition child_key (h : heap) (c : nat) : option nat :=
  if c <? h_size h then do x <- nth_error (h_heap h) c; nth_error (h_key h) x else Some 0.
(** :107-129 *)
Definition choose (k lcp_k lcp_lc lcp_rc pos : nat) : dir :=
  if (lcp_k <? lcp_lc) && (lcp_k <? lcp_rc) then (if lcp_rc <? lcp_lc then LEFT else RIGHT)
  else if lcp_k <? lcp_lc then LEFT
  else if lcp_k <? lcp_rc then RIGHT
  else if (lcp_k =? lcp_lc) && (lcp_k =? lcp_rc) then (if lc pos <? rc pos then LEFT else RIGHT)
  else if (lcp_k =? lcp_lc) && (lc pos <? k) then LEFT
  else if (lcp_k =? lcp_rc) && (rc pos <? k) then RIGHT
  else NONE.
(** :98-145 *)
Fixpoint sift_down (fuel : nat) (h : heap) (pos k lcp_k : nat) : option heap :=
  match fuel with
  | O => None
  | S f =>
    do a <- child_key h (lc pos);
    do b <- child_key h (rc pos);
    match choose k lcp_k a b pos with
    | NONE => hput h pos k
    | d => let c := match d with LEFT => lc pos | _ => rc pos end in
           do x <- nth_error (h_heap h) c;
           do h <- hput h pos x;
           sift_down f h c k lcp_k
    end
  end.
(** [pos] at least doubles each turn: h_size turns suffice when it stays inside *)
Definition perlocate_down (h : heap) (pos k : nat) : option heap :=
  do lcp_k <- nth_error (h_key h) k;
  sift_down (h_size h + 1) h pos k lcp_k.
(** :152-169; m_heap[--m_size] with m_size = 0 is outside *)
Definition heap_remove (h : heap) (i : nat) : option heap :=
  do pos <- nth_error (h_pos h) i;
  if pos =? h_undef h then Some h
  else
    do s <- slot (h_size h);
    do k <- nth_error (h_heap h) s;
    do h <- perlocate_down (mk_heap (h_key h) s (h_heap h) (h_pos h)) pos k;
    do p <- put (h_pos h) i (h_undef h);
    Some (mk_heap (h_key h) (h_size h) (h_heap h) p).
(** :177-193 *)
Definition heap_decrease (h : heap) (i v : nat) : option heap :=
  do key <- put (h_key h) i v;
  let h := mk_heap key (h_size h) (h_heap h) (h_pos h) in
  do pos <- nth_error (h_pos h) i;
  if pos =? h_undef h then Some h else perlocate_down h pos i.
Definition heap_ops : queue heap := {|
  q_size := h_size;                                                              (* :204-206 *)
  q_top := fun h => nth_error (h_heap h) 0;                                      (* :210-212 *)
  q_has := fun h i => do p <- nth_error (h_pos h) i; Some (negb (p =? h_undef h)); (* :198-200 *)
  q_key := fun h i => nth_error (h_key h) i;                                     (* :224-226 *)
  q_remove := heap_remove;
  q_decrease := heap_decrease |}.
(** MaxHeapStrategy.hpp:58-60 *)
Fixpoint heap_fill (h : heap) (thr i m : nat) : option heap :=
  match m with
  | O => Some h
  | S m' =>
    do v <- nth_error (h_key h) i;
    do h <- (if thr <=? v then heap_insert h i else Some h);
    heap_fill h thr (i + 1) m'
  end.
(** :36-102 *)
Definition max_heap_strategy (thr : nat) (sa isa lcp : list nat) : option (list factor) :=
  let heap_size := length (filter (fun v => thr <=? v) (tl lcp)) in
  do h <- heap_fill (heap_new lcp heap_size) thr 1 (length lcp - 1);
  queue_loop heap_ops (length sa) sa isa thr h.

(** ** boost::heap::pairing_heap with handles, as used by BoostHeap.hpp.  The library is
    external: the heap is the list of contained items, top() is the maximum under the
    comparator (BoostHeap.hpp:58-61). *)
Record bheap := mk_bh { b_key : list nat; b_sa : list nat; b_items : list nat }.
(** BoostHeap.hpp:58-61: is i ordered before (below) j? *)
Definition b_less (h : bheap) (i j : nat) : option bool :=
  do a <- nth_error (b_key h) i; do b <- nth_error (b_key h) j;
  if a =? b then do s <- nth_error (b_sa h) i; do t <- nth_error (b_sa h) j; Some (t <? s)
  else Some (a <? b).
Fixpoint b_best (h : bheap) (m : nat) (l : list nat) : option nat :=
  match l with
  | [] => Some m
  | x :: l' => do c <- b_less h m x; b_best h (if c : bool then x else m) l'
  end.
Definition b_top (h : bheap) : option nat :=
  match b_items h with [] => None | x :: l => b_best h x l end.
Definition b_remove (h : bheap) (i : nat) : option bheap :=
  Some (mk_bh (b_key h) (b_sa h) (filter (fun x => negb (x =? i)) (b_items h))).
Definition b_has (h : bheap) (i : nat) : option bool := Some (existsb (fun x => x =? i) (b_items h)).
(** :108-109 *)
Definition b_decrease (h : bheap) (i v : nat) : option bheap :=
  do key <- put (b_key h) i v; Some (mk_bh key (b_sa h) (b_items h)).
Definition boost_ops : queue bheap := {|
  q_size := fun h => length (b_items h);
  q_top := b_top;
  q_has := b_has;
  q_key := fun h i => nth_error (b_key h) i;
  q_remove := b_remove;
  q_decrease := b_decrease |}.
(** BoostHeap.hpp:38-119 *)
Definition boost_strategy (thr : nat) (sa isa lcp : list nat) : option (list factor) :=
  queue_loop boost_ops (length sa) sa isa thr
    (mk_bh lcp sa (filter (fun i => match nth_error lcp i with Some v => thr <=? v | None => false end)
                          (seq 1 (length lcp - 1)))).
