(** Model of the factorisation strategies driven by the suffix, inverse suffix and LCP arrays:
    compressors/LZSSLCPCompressor.hpp and compressors/lcpcomp/compress/*.hpp.

    [sa], [isa], [lcp], [plcp] are the contents of the arrays (SAComp.v models how they are
    computed).  Texts have fewer than 2^32 bytes, so sums of positions and lengths do not wrap
    in size_t / len_t.  Access outside an array is [None]; [fuel] bounds loops whose
    termination has to be proved ([None] when it runs out).  Factors are returned in the order
    of the emplace_back calls. *)
From Verif Require Import Base LZSS.
Local Open Scope nat_scope.

(** ** LZSSLCPCompressor *)
(** LZSSLCPCompressor.hpp:74-76 walking up from psv_pos = k - 1 (so k = 0 is psv_pos = -1);
    result psv_pos + 1 and psv_lcp *)
Fixpoint psv_walk (sa lcp : list nat) (x k l : nat) : option (nat * nat) :=
  match k with
  | O => Some (0, l)
  | S p =>
    do s <- nth_error sa p;
    if x <? s then do v <- nth_error lcp p; psv_walk sa lcp x p (Nat.min l v) else Some (k, l)
  end.
(** :86-95, m = n - j more entries to look at; result nsv_pos and nsv_lcp *)
Fixpoint nsv_walk (sa lcp : list nat) (x j m l : nat) : option (nat * nat) :=
  match m with
  | O => Some (j, 0)
  | S m' =>
    do v <- nth_error lcp j;
    do s <- nth_error sa j;
    if s <? x then Some (j, Nat.min l v) else nsv_walk sa lcp x (j + 1) m' (Nat.min l v)
  end.
(** :82-96; the start value SSIZE_MAX = 2^63-1 only ever meets values below 2^32: the first
    minimum is lcp[nsv_pos] *)
Definition nsv_search (sa lcp : list nat) (n x cur : nat) : option (nat * nat) :=
  if cur + 1 <? n then
    do v <- nth_error lcp (cur + 1);
    nsv_walk sa lcp x (cur + 1) (n - (cur + 1)) v
  else Some (cur + 1, 0).
(** :63-111 *)
Fixpoint lzss_lcp_loop (fuel : nat) (sa isa lcp : list nat) (thr i : nat) : option (list factor) :=
  if i + 1 <? length sa then
    match fuel with
    | O => None
    | S f =>
      do cur <- nth_error isa i;
      do x <- nth_error sa cur;
      do l0 <- nth_error lcp cur;
      do psv <- (if 0 <? l0 then psv_walk sa lcp x cur l0 else Some (cur, l0));
      do nsv <- nsv_search sa lcp (length sa) x cur;
      let mx := Nat.max (snd psv) (snd nsv) in
      if thr <=? mx then
        do src <- (if mx =? snd psv
                   then match fst psv with O => None | S p => nth_error sa p end
                   else nth_error sa (fst nsv));
        do fs <- lzss_lcp_loop f sa isa lcp thr (i + mx);
        Some (mk_f i src mx :: fs)
      else lzss_lcp_loop f sa isa lcp thr (i + 1)
    end
  else Some [].
Definition lzss_lcp (fuel : nat) (thr : nat) (sa isa lcp : list nat) : option (list factor) :=
  lzss_lcp_loop fuel sa isa lcp thr 0.

(** sa[r - 1]; an access with r = 0 is out of bounds *)
Definition pred_of (sa : list nat) (r : nat) : option nat :=
  match r with O => None | S r' => nth_error sa r' end.

(** ** NaiveStrategy.hpp *)
(** :53-59 is any of marked[p], .., marked[p+l-1] set? *)
Fixpoint all_free (marked : list bool) (p l : nat) : option bool :=
  match l with
  | O => Some true
  | S l' => do b <- nth_error marked p; if b then Some false else all_free marked (p + 1) l'
  end.
(** :67-69 *)
Fixpoint mark (marked : list bool) (p l : nat) : option (list bool) :=
  match l with
  | O => Some marked
  | S l' => if p <? length marked then mark (upd marked p true) (p + 1) l' else None
  end.
(** :48-78 *)
Fixpoint naive_loop (fuel : nat) (sa isa lcp : list nat) (thr i : nat) (marked : list bool) : option (list factor) :=
  if i + 1 <? length sa then
    match fuel with
    | O => None
    | S f =>
      do s <- nth_error isa i;
      do l <- nth_error lcp s;
      if thr <=? l then
        do av <- all_free marked i l;
        if av then
          do src <- pred_of sa s;
          do marked <- mark marked src l;
          do fs <- naive_loop f sa isa lcp thr (i + l) marked;
          Some (mk_f i src l :: fs)
        else naive_loop f sa isa lcp thr (i + 1) marked
      else naive_loop f sa isa lcp thr (i + 1) marked
    end
  else Some [].
Definition naive (fuel thr : nat) (sa isa lcp : list nat) : option (list factor) :=
  naive_loop fuel sa isa lcp thr 0 (repeat false (length sa)).

(** ** PLCPPeaksStrategy.hpp *)
(** :54 the condition; plcp[i-1] is only read when i is not last_replacement_pos; i = 0 there
    would be an access to plcp[-1] *)
Definition is_peak (plcp : list nat) (thr last i : nat) : option bool :=
  do a <- nth_error plcp i;
  do up <- (if i =? last then Some true else
              match i with O => None | S i' => do b <- nth_error plcp i'; Some (b <? a) end);
  if up then
    do c <- nth_error plcp (i + 1);
    Some ((c <? a) && (thr <=? a))
  else Some false.
(** :52-76 *)
Fixpoint peaks_loop (fuel : nat) (sa isa plcp : list nat) (thr last i : nat) : option (list factor) :=
  if i + 1 <? length sa then
    match fuel with
    | O => None
    | S f =>
      do pk <- is_peak plcp thr last i;
      if pk then
        do l <- nth_error plcp i;
        do r <- nth_error isa i;
        do src <- pred_of sa r;
        do fs <- peaks_loop f sa isa plcp thr (i + l - 1) (i + l);
        Some (mk_f i src l :: fs)
      else peaks_loop f sa isa plcp thr last (i + 1)
    end
  else Some [].
Definition plcp_peaks (fuel thr : nat) (sa isa plcp : list nat) : option (list factor) :=
  peaks_loop fuel sa isa plcp thr 0 0.

(** ** BulldozerStrategy.hpp:48-122: the vector filled at :66-72 is a local of the lambda that
    shadows the one processed at :89-120, which therefore is empty. *)
Definition bulldozer (thr : nat) (sa lcp : list nat) : option (list factor) := Some [].

(** ** ArraysComp.hpp *)
(** :99-101 lcp[isa[p]] = 0 for the [k] positions from p on *)
Fixpoint set_run (isa lcp : list nat) (p k : nat) : option (list nat) :=
  match k with
  | O => Some lcp
  | S k' =>
    do r <- nth_error isa p;
    if r <? length lcp then set_run isa (upd lcp r 0) (p + 1) k' else None
  end.
(** :103-109, k counts up to [max_affect]; m iterations left *)
Fixpoint clip_run (isa lcp : list nat) (pos k m : nat) : option (list nat) :=
  match m with
  | O => Some lcp
  | S m' =>
    do r <- nth_error isa (pos - k - 1);
    do v <- nth_error lcp r;
    clip_run isa (upd lcp r (Nat.min (k + 1) v)) pos (k + 1) m'
  end.
(** push_back into bucket b *)
Definition bucket_push (cand : list (list nat)) (b x : nat) : option (list (list nat)) :=
  do l <- nth_error cand b; Some (upd cand b (l ++ [x])).
(** :55-58, i from 1 *)
Fixpoint fill_cand (lcp : list nat) (thr i m : nat) (cand : list (list nat)) : option (list (list nat)) :=
  match m with
  | O => Some cand
  | S m' =>
    do v <- nth_error lcp i;
    if v <? thr then fill_cand lcp thr (i + 1) m' cand
    else do cand <- bucket_push cand (v - thr) i; fill_cand lcp thr (i + 1) m' cand
  end.
(** :82-111 one bucket; pushes go to other buckets ([col] is not modified) *)
Fixpoint arr_col (sa isa : list nat) (thr maxlcp : nat) (col : list nat)
    (lcp : list nat) (cand : list (list nat)) : option (list nat * list (list nat) * list factor) :=
  match col with
  | [] => Some (lcp, cand, [])
  | r :: col' =>
    do v <- nth_error lcp r;
    if v <? maxlcp then
      if v <? thr then arr_col sa isa thr maxlcp col' lcp cand
      else do cand <- bucket_push cand (v - thr) r; arr_col sa isa thr maxlcp col' lcp cand
    else
      do pos <- nth_error sa r;
      do src <- pred_of sa r;
      do lcp1 <- set_run isa lcp pos v;
      do lcp2 <- clip_run isa lcp1 pos 0 (Nat.min v pos);
      do q <- arr_col sa isa thr maxlcp col' lcp2 cand;
      let '(lcp', cand', fs) := q in
      Some (lcp', cand', mk_f pos src v :: fs)
  end.
(** :72-114, buckets maxlcp, maxlcp-1, .., thr ([k] of them left).  With thr = 0 the unsigned
    maxlcp wraps after 0 and the next access is outside [cand]. *)
Fixpoint arr_loop (sa isa : list nat) (thr k : nat) (lcp : list nat) (cand : list (list nat)) : option (list factor) :=
  match k with
  | O => if thr =? 0 then None else Some []
  | S k' =>
    do col <- nth_error cand k';
    do q <- arr_col sa isa thr (thr + k') col lcp cand;
    let '(lcp, cand, fs) := q in
    do fs' <- arr_loop sa isa thr k' lcp (upd cand k' []);
    Some (fs ++ fs')
  end.
(** :36-117, [mx] is lcp.max_lcp() *)
Definition arrays_comp (thr : nat) (sa isa lcp : list nat) (mx : nat) : option (list factor) :=
  if mx + 1 <=? thr then Some []
  else
    do cand <- fill_cand lcp thr 1 (length sa - 1) (repeat [] (mx + 1 - thr));
    arr_loop sa isa thr (mx + 1 - thr) lcp cand.

(** ** Strategies with a priority queue *)
(** what the strategies use of MaxLCPSuffixList, ArrayMaxHeap and boost::heap::pairing_heap
    (the last together with its table of handles); the queue also holds the LCP array, whose
    entries are its keys *)
Record queue (Q : Type) := mk_q {
  q_size : Q -> nat;
  q_top : Q -> option nat;
  q_has : Q -> nat -> option bool;
  q_key : Q -> nat -> option nat;
  q_remove : Q -> nat -> option Q;
  q_decrease : Q -> nat -> nat -> option Q }.
Arguments q_size {Q}. Arguments q_top {Q}. Arguments q_has {Q}. Arguments q_key {Q}.
Arguments q_remove {Q}. Arguments q_decrease {Q}.

Section Queue.
  Context {Q : Type} (ops : queue Q).
  (** MaxLCPStrategy.hpp:73-78, BoostHeap.hpp:93-98, MaxHeapStrategy.hpp:80-82 (there remove()
      itself does nothing when the item is not contained, ArrayMaxHeap.hpp:154) *)
  Fixpoint drop_run (isa : list nat) (q : Q) (p k : nat) : option Q :=
    match k with
    | O => Some q
    | S k' =>
      do r <- nth_error isa p;
      do c <- q_has ops q r;
      do q <- (if c then q_remove ops q r else Some q);
      drop_run isa q (p + 1) k'
    end.
  (** MaxLCPStrategy.hpp:81-95, BoostHeap.hpp:101-116, MaxHeapStrategy.hpp:85-99; m iterations
      left, m = min(flen, fpos) at the start *)
  Fixpoint trim_run (isa : list nat) (thr : nat) (q : Q) (pos k m : nat) : option Q :=
    match m with
    | O => Some q
    | S m' =>
      let s := pos - k - 1 in
      do r <- nth_error isa s;
      do c <- q_has ops q r;
      do q <- (if c then
                 do v <- q_key ops q r;
                 if pos <? s + v then
                   let l := pos - s in
                   if thr <=? l then q_decrease ops q r l else q_remove ops q r
                 else Some q
               else Some q);
      trim_run isa thr q pos (k + 1) m'
    end.
  (** MaxLCPStrategy.hpp:61-96, BoostHeap.hpp:81-117, MaxHeapStrategy.hpp:68-100 *)
  Fixpoint queue_loop (fuel : nat) (sa isa : list nat) (thr : nat) (q : Q) : option (list factor) :=
    if q_size ops q =? 0 then Some []
    else match fuel with
    | O => None
    | S f =>
      do m <- q_top ops q;
      do pos <- nth_error sa m;
      do src <- pred_of sa m;
      do len <- q_key ops q m;
      do q <- drop_run isa q pos len;
      do q <- trim_run isa thr q pos 0 (Nat.min len pos);
      do fs <- queue_loop f sa isa thr q;
      Some (mk_f pos src len :: fs)
    end.
End Queue.

(** LZSSFactors.hpp:69-76 FactorBuffer::sort: by position (insertion sort; the order of
    factors with equal positions, which std::sort leaves open, is the one of the buffer) *)
Fixpoint fac_insert (f : factor) (fs : list factor) : list factor :=
  match fs with
  | [] => [f]
  | g :: fs' => if f_pos f <=? f_pos g then f :: fs else g :: fac_insert f fs'
  end.
Fixpoint fac_sort (fs : list factor) : list factor :=
  match fs with [] => [] | f :: fs' => fac_insert f (fac_sort fs') end.
