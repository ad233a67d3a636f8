(** Models of the lcpcomp decode buffers: compressors/lcpcomp/decompress/{CompactDec,
    DecodeQueueListBuffer,ScanDec,MultiMapBuffer}.hpp and the decoding part of
    compressors/LCPCompressor.hpp.  The decoder loop itself is [decode_events] (LZSS.v).
    [None]: undefined behaviour (index out of range, uninitialised pointer, a bucket
    changed while it is iterated) or recursion deeper than [fuel].  Allocation
    (malloc/new/realloc) and the chain-length statistics are not modelled. *)
From Verif Require Import Base BitIO IntCodes Coders LZSS.
Local Open Scope nat_scope.

(** m_buffer and m_decoded.  Buffers without m_decoded (CompactDec, ScanDec) test
    [m_buffer[p] != 0] instead: [nz = true]. *)
Record bst := mk_b { b_buf : list N; b_dec : list bool }.
Definition b_init (n : nat) : bst := mk_b (repeat 0%N n) (repeat false n).
Definition bget (st : bst) (p : nat) : option N := nth_error (b_buf st) p.
Definition bdec (nz : bool) (st : bst) (p : nat) : option bool :=
  if nz then do v <- nth_error (b_buf st) p; Some (negb (v =? 0)%N) else nth_error (b_dec st) p.
Definition bput (st : bst) (p : nat) (c : N) : option bst :=
  if p <? length (b_buf st) then Some (mk_b (upd (b_buf st) p c) (upd (b_dec st) p true)) else None.

(** ** Buckets of waiting positions.
    [slot p]: where the bucket of position p lives (CompactDec and the queue list: p
    itself; EagerScanDec: a rank, only for marked positions).  A slot is [None] while
    its pointer is uninitialised. *)
Definition buckets := list (option (list nat)).
Definition list_nat_eqb (a b : list nat) : bool := if list_eq_dec Nat.eq_dec a b then true else false.
Definition bucket (fw : buckets) (k : nat) : option (list nat) :=
  match nth_error fw k with Some (Some b) => Some b | _ => None end.

Section Forward.
  Variable slot : nat -> option nat.
  (** the loop over a bucket [b]; it must not change meanwhile *)
  Fixpoint iter_bucket (f : nat -> bst * buckets -> option (bst * buckets)) (k : nat) (b l : list nat)
    (st : bst * buckets) : option (bst * buckets) :=
    match l with
    | [] => Some st
    | q :: l' =>
        do st' <- f q st;
        do b' <- bucket (snd st') k;
        if list_nat_eqb b b' then iter_bucket f k b l' st' else None
    end.
  (** CompactDec.hpp:39-56, DecodeQueueListBuffer.hpp:36-51, ScanDec.hpp:99-122
      decode_literal_at *)
  Fixpoint dla (fuel : nat) (pos : nat) (c : N) (st : bst * buckets) : option (bst * buckets) :=
    match fuel with
    | O => None
    | S fuel =>
        do st1 <- bput (fst st) pos c;
        match slot pos with
        | None => Some (st1, snd st)
        | Some k =>
            do b <- bucket (snd st) k;
            do st2 <- iter_bucket (fun q => dla fuel q c) k b b (st1, snd st);
            Some (fst st2, upd (snd st2) k (Some []))
        end
    end.
  (** CompactDec.hpp:96-118, DecodeQueueListBuffer.hpp:67-78: the body of the loop for
      one position; ScanDec.hpp:72-89 *)
  Definition fwd_copy (nz : bool) (fuel : nat) (cur src : nat) (st : bst * buckets)
    : option (bst * buckets) :=
    do d <- bdec nz (fst st) src;
    if d then do v <- bget (fst st) src; dla fuel cur v st
    else do k <- slot src;
         do b <- bucket (snd st) k;
         Some (fst st, upd (snd st) k (Some (b ++ [cur]))).
  Fixpoint fwd_factor (nz : bool) (fuel : nat) (cur src num : nat) (st : bst * buckets)
    : option (bst * buckets) :=
    match num with
    | O => Some st
    | S num' => do st' <- fwd_copy nz fuel cur src st;
                fwd_factor nz fuel (cur + 1) (src + 1) num' st'
    end.
  (** decode_literal / decode_factor over all events *)
  Fixpoint fwd_run (nz : bool) (fuel : nat) (cur : nat) (es : list event) (st : bst * buckets)
    : option (bst * buckets) :=
    match es with
    | [] => Some st
    | ELit c :: es' => do st' <- dla fuel cur c st; fwd_run nz fuel (cur + 1) es' st'
    | EFac src len :: es' =>
        do st' <- fwd_factor nz fuel cur (N.to_nat src) (N.to_nat len) st;
        fwd_run nz fuel (cur + N.to_nat len) es' st'
    end.
End Forward.

(** CompactDec.hpp:82-128 (nz = true); DecodeQueueListBuffer.hpp:54-86 (nz = false);
    decode_lazy and decode_eagerly do nothing *)
Definition dec_direct (nz : bool) (fuel n : nat) (es : list event) : option (list N) :=
  do st <- fwd_run Some nz fuel 0 es (b_init n, repeat (Some []) n);
  Some (b_buf (fst st)).
Definition compact_dec := dec_direct true.
Definition queue_dec := dec_direct false.

(** ** ScanDec and MultimapBuffer: factors are kept for later.
    A kept factor is (target, source, length). *)
Definition kept := (nat * nat * nat)%type.
(** ScanDec.hpp:222-236, MultiMapBuffer.hpp:93-108 decode_factor *)
Fixpoint keep_factor (nz : bool) (cur src num : nat) (stored : bool) (st : bst * list kept)
  : option (bst * list kept) :=
  match num with
  | O => Some st
  | S num' =>
      do d <- bdec nz (fst st) src;
      if d then
        do v <- bget (fst st) src;
        do st1 <- bput (fst st) cur v;
        keep_factor nz (cur + 1) (src + 1) num' stored (st1, snd st)
      else
        keep_factor nz (cur + 1) (src + 1) num' true
          (fst st, if stored then snd st else snd st ++ [(cur, src, num)])
  end.
(** decode_literal (ScanDec.hpp:217-220; MultiMapBuffer.hpp:89-91, whose
    decode_literal_at finds an empty m_fwd at this stage) / decode_factor *)
Fixpoint keep_run (nz : bool) (cur : nat) (es : list event) (st : bst * list kept)
  : option (bst * list kept) :=
  match es with
  | [] => Some st
  | ELit c :: es' => do st1 <- bput (fst st) cur c; keep_run nz (cur + 1) es' (st1, snd st)
  | EFac src len :: es' =>
      do st' <- keep_factor nz cur (N.to_nat src) (N.to_nat len) false st;
      keep_run nz (cur + N.to_nat len) es' st'
  end.
(** ScanDec.hpp:176-187 decode_lazy_ (copies unconditionally); MultiMapBuffer.hpp:64-77
    (only decoded sources).  [nz] tells which. *)
Fixpoint lazy_factor (nz : bool) (tgt src num : nat) (st : bst) : option bst :=
  match num with
  | O => Some st
  | S num' =>
      do v <- bget st src;
      do d <- (if nz then Some true else bdec false st src);
      do st' <- (if d then bput st tgt v else Some st);
      lazy_factor nz (tgt + 1) (src + 1) num' st'
  end.
Fixpoint lazy_round (nz : bool) (ks : list kept) (st : bst) : option bst :=
  match ks with
  | [] => Some st
  | (t, s, l) :: ks' => do st' <- lazy_factor nz t s l st; lazy_round nz ks' st'
  end.
(** ScanDec.hpp:152-160, MultiMapBuffer.hpp:110-116 decode_lazy *)
Fixpoint lazy_rounds (nz : bool) (rounds : nat) (ks : list kept) (st : bst) : option bst :=
  match rounds with
  | O => Some st
  | S r => do st' <- lazy_round nz ks st; lazy_rounds nz r ks st'
  end.

(** ** EagerScanDec (ScanDec.hpp:25-137) *)
(** :40-47 m_bv marks the positions holding 0; :57-60 rank(i) counts marks in [0..i] *)
Definition marks (buf : list N) : list bool := map (fun v => (v =? 0)%N) buf.
Definition count_true (l : list bool) : nat := count_occ Bool.bool_dec l true.
Definition eager_slot (bv : list bool) (p : nat) : option nat :=
  match nth_error bv p with
  | Some true => Some (count_true (firstn (p + 1) bv))
  | _ => None
  end.
(** :50-54: m_empty_entries + 1 pointers of which the first m_empty_entries are set to
    nullptr *)
Definition eager_buckets (bv : list bool) : buckets := repeat (Some []) (count_true bv) ++ [None].
(** :62-98 decode *)
Fixpoint eager_run (slot : nat -> option nat) (nz : bool) (fuel : nat) (ks : list kept) (st : bst * buckets)
  : option (bst * buckets) :=
  match ks with
  | [] => Some st
  | (t, s, l) :: ks' => do st' <- fwd_factor slot nz fuel t s l st; eager_run slot nz fuel ks' st'
  end.
(** ScanDec as driven by LCPCompressor.hpp:28-75 *)
Definition scan_dec (scans fuel n : nat) (es : list event) : option (list N) :=
  do (st, ks) <- keep_run true 0 es (b_init n, []);
  do st1 <- lazy_rounds true scans ks st;
  let bv := marks (b_buf st1) in
  do st2 <- eager_run (eager_slot bv) true fuel ks (st1, eager_buckets bv);
  Some (b_buf (fst st2)).

(** ** MultimapBuffer *)
(** std::unordered_multimap<len_compact_t, len_compact_t> as a list of pairs; which of
    several entries with the key [find] returns is left open: [pick] *)
Definition mmap := list (nat * nat).
Definition picker := mmap -> nat -> option nat.
Definition picker_ok (pick : picker) : Prop :=
  forall m k, match pick m k with Some v => In (k, v) m | None => forall v, ~ In (k, v) m end.
Definition pair_dec (a b : nat * nat) : {a = b} + {a <> b}.
Proof. decide equality; apply Nat.eq_dec. Defined.
Fixpoint mm_erase (e : nat * nat) (m : mmap) : option mmap :=
  match m with
  | [] => None
  | x :: m' => if pair_dec x e then Some m' else do r <- mm_erase e m'; Some (x :: r)
  end.
(** :52-55 *)
Fixpoint mm_loop (pick : picker) (f : nat -> bst * mmap -> option (bst * mmap)) (pos k : nat) (st : bst * mmap)
  : option (bst * mmap) :=
  match pick (snd st) pos with
  | None => Some st
  | Some q =>
      match k with
      | O => None
      | S k' => do st' <- f q st;
                do m' <- mm_erase (pos, q) (snd st');
                mm_loop pick f pos k' (fst st', m')
      end
  end.
(** MultiMapBuffer.hpp:36-62 decode_literal_at; erasing an entry that is gone is undefined *)
Fixpoint mm_dla (pick : picker) (fuel : nat) (pos : nat) (c : N) (st : bst * mmap) : option (bst * mmap) :=
  match fuel with
  | O => None
  | S fuel =>
      do st1 <- bput (fst st) pos c;
      mm_loop pick (fun q => mm_dla pick fuel q c) pos (length (snd st)) (st1, snd st)
  end.
(** MultiMapBuffer.hpp:118-147 decode_eagerly *)
Fixpoint mm_factor (pick : picker) (fuel : nat) (tgt src num : nat) (st : bst * mmap) : option (bst * mmap) :=
  match num with
  | O => Some st
  | S num' =>
      do d <- bdec false (fst st) src;
      do st' <- (if d then do v <- bget (fst st) src; mm_dla pick fuel tgt v st
                 else Some (fst st, (src, tgt) :: snd st));
      mm_factor pick fuel (tgt + 1) (src + 1) num' st'
  end.
Fixpoint mm_run (pick : picker) (fuel : nat) (ks : list kept) (st : bst * mmap) : option (bst * mmap) :=
  match ks with
  | [] => Some st
  | (t, s, l) :: ks' => do st' <- mm_factor pick fuel t s l st; mm_run pick fuel ks' st'
  end.
Definition multimap_dec (pick : picker) (lazy fuel n : nat) (es : list event) : option (list N) :=
  do (st, ks) <- keep_run false 0 es (b_init n, []);
  do st1 <- lazy_rounds false lazy ks st;
  do st2 <- mm_run pick fuel ks (st1, []);
  Some (b_buf (fst st2)).

(** ** The whole decompressor (LCPCompressor.hpp:22-75, 136-148), for a decode buffer
    given as a function of the text length and the events *)
Definition lcp_decompress (c : coder) (fuel : nat) (dec : nat -> list event -> option (list N)) (f : list N)
  : option (list N) :=
  do (n, es) <- decode_events c fuel f; dec (N.to_nat n) es.
