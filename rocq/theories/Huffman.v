(** Model of coders/HuffmanCoder.hpp. *)
From Verif Require Import Base BitIO IntCodes Coders.
Local Open Scope nat_scope.

(** [a.(i) = x]; an out-of-range write is undefined behaviour *)
Definition hset {A} (a : list A) (i : nat) (x : A) : option (list A) :=
  if i <? length a then Some (upd a i x) else None.

(** ** The C++ standard library algorithms the coder calls
    std::make_heap / pop_heap / push_heap (with the comparison
    [comp(a,b) = A[a] > A[b]], i.e. a min-heap with respect to [key]) and std::sort
    (with respect to [key]).  They act on the given range and return its new
    contents; what the C++ standard promises about them is [stdlib_ok] below.
    Everything is proved for every implementation satisfying it, i.e. for every
    tie-breaking. *)
Record stdlib := mk_stdlib {
  make_heap : (nat -> nat) -> list nat -> list nat;
  pop_heap : (nat -> nat) -> list nat -> list nat;
  push_heap : (nat -> nat) -> list nat -> list nat;
  std_sort : (nat -> nat) -> list nat -> list nat }.

(** ** Encoder side: the table *)

(** HuffmanCoder.hpp:36-48 count_alphabet_literals (and :22-34 count_alphabet): 256 counters of
    type len_compact_t (32 bits) *)
Definition count_literals (lits : list N) : list N :=
  fold_left (fun C c => upd C (N.to_nat (w8 c)) (w32 (nth (N.to_nat (w8 c)) C 0%N + 1)))
            lits (repeat 0%N 256).

(** HuffmanCoder.hpp:52-54 effective_alphabet_size *)
Definition effective_alphabet_size (C : list N) : nat :=
  length (filter (fun x => negb (x =? 0)%N) C).

(** HuffmanCoder.hpp:62-79 gen_effective_alphabet *)
Definition gen_effective_alphabet (C : list N) : list nat :=
  filter (fun i => negb (nth i C 0 =? 0)%N) (seq 0 256).

(** apply a library algorithm to the range [A, A+k) *)
Definition on_prefix (k : nat) (f : list nat -> list nat) (A : list nat) : list nat :=
  f (firstn k A) ++ skipn k A.
Definition key (A : list nat) (i : nat) : nat := nth i A 0.

(** HuffmanCoder.hpp:108-121, the body of the while loop; [h > 0].  The array
    [A] is the C++ array; its entries (size_t) are unbounded numbers here: all
    values are at most the number of literals (< 2^32) or 2*256. *)
Definition tree_step (L : stdlib) (h : nat) (A : list nat) : option (list nat) :=
  let A1 := on_prefix (h + 1) (pop_heap L (key A)) A in
  do m1 <- nth_error A1 h;
  let h := h - 1 in
  let A2 := on_prefix (h + 1) (pop_heap L (key A1)) A1 in
  do m2 <- nth_error A2 h;
  do w1 <- nth_error A2 m1;
  do w2 <- nth_error A2 m2;
  do A3 <- hset A2 (h + 1) (w1 + w2);
  do A4 <- hset A3 h (h + 1);
  do A5 <- hset A4 m2 (h + 1);
  do A6 <- hset A5 m1 (h + 1);
  Some (on_prefix (h + 1) (push_heap L (key A6)) A6).
Fixpoint tree_loop (L : stdlib) (h : nat) (A : list nat) : option (list nat) :=
  match h with
  | O => Some A
  | S h' => do A' <- tree_step L h A; tree_loop L h' A'
  end.

(** HuffmanCoder.hpp:123-126: from parent pointers to depths; [is] = 2, 3, ..., 2n-1 *)
Fixpoint depth_loop (is : list nat) (A : list nat) : option (list nat) :=
  match is with
  | [] => Some A
  | i :: is => do p <- nth_error A i; do d <- nth_error A p; do A' <- hset A i (d + 1); depth_loop is A'
  end.

(** HuffmanCoder.hpp:88-167 gen_codelengths; [n] = alphabet_size > 0 *)
Definition gen_codelengths (L : stdlib) (C : list N) (map_from : list nat) : option (list nat) :=
  let n := length map_from in
  let A0 := seq n n ++ map (fun c => N.to_nat (nth c C 0%N)) map_from in
  let A1 := on_prefix n (make_heap L (key A0)) A0 in
  do A2 <- tree_loop L (n - 1) A1;
  do A3 <- hset A2 1 0;
  do A4 <- depth_loop (seq 2 (2 * n - 2)) A3;
  Some (map (fun d => d mod 256) (skipn n A4)).

(** HuffmanCoder.hpp:173-188 gen_numl; the counters are uliteral_t (8 bits) *)
Definition gen_numl (lens : list nat) (longest : nat) : option (list N) :=
  fold_left (fun o l =>
    do numl <- o;
    match l with
    | O => None
    | S l' => do x <- nth_error numl l'; hset numl l' (w8 (x + 1))
    end) lens (Some (repeat 0%N longest)).

(** HuffmanCoder.hpp:192-198 gen_first_codes, from the last entry to the first;
    [numl] has [longest] entries.  (For longest = 0 the C++ writes firstcode[-1].) *)
Fixpoint first_codes (numl : list N) : list N :=
  match numl with
  | [] => []
  | _ :: r =>
      match r with
      | [] => [0%N]
      | y :: _ => let fr := first_codes r in (w64 (nth 0 fr 0 + y) / 2)%N :: fr
      end
  end.
Definition gen_first_codes (numl : list N) : option (list N) :=
  match numl with [] => None | _ => Some (first_codes numl) end.

(** HuffmanCoder.hpp:210-217, the loop of gen_codewords *)
Fixpoint codewords_loop (fc : list N) (lens : list nat) : option (list N) :=
  match lens with
  | [] => Some []
  | l :: r =>
      match l with
      | O => None
      | S l' => do c <- nth_error fc l';
                do cs <- codewords_loop (upd fc l' (w64 (c + 1))) r;
                Some (c :: cs)
      end
  end.
(** HuffmanCoder.hpp:202-220 gen_codewords *)
Definition gen_codewords (lens : list nat) (numl : list N) : option (list N) :=
  do fc <- gen_first_codes numl; codewords_loop fc lens.

(** HuffmanCoder.hpp:222-258 huffmantable, extended_huffmantable (alphabet_size is the length
    of [t_map]) *)
Record htable := mk_htable {
  t_map : list N; t_numl : list N; t_longest : nat;
  t_codewords : list N; t_lens : list nat }.

(** HuffmanCoder.hpp:442-474 gen_huffmantable *)
Definition gen_huffmantable (L : stdlib) (C : list N) : option htable :=
  let map_from := gen_effective_alphabet C in
  do codelengths <- gen_codelengths L C map_from;
  let order := std_sort L (key codelengths) (seq 0 (length map_from)) in
  let longest := list_max codelengths in
  let lens := map (key codelengths) order in
  let omap := map (fun i => N.of_nat (nth i map_from 0)) order in
  do numl <- gen_numl lens longest;
  do cw <- gen_codewords lens numl;
  Some (mk_htable omap numl longest cw lens).

(** HuffmanCoder.hpp:294-304 gen_ordered_map_to_effective: the allocation has ULITERAL_MAX = 255
    entries, memset initialises only sizeof(pointer) = 8 of them; an uninitialised entry is [None] *)
Definition gen_map_to_effective (omap : list N) : option (list (option nat)) :=
  fold_left (fun o ic => do m <- o; hset m (N.to_nat (snd ic)) (Some (fst ic mod 256)))
            (combine (seq 0 (length omap)) omap)
            (Some (repeat (Some 255) 8 ++ repeat None 247)).

(** HuffmanCoder.hpp:264-273 huffmantable_encode *)
Fixpoint write_cints (l : list N) : option (list bool) :=
  match l with
  | [] => Some []
  | x :: r => do a <- write_cint x 7; do b <- write_cints r; Some (a ++ b)
  end.
Definition huffmantable_encode (t : htable) : option (list bool) :=
  do a <- write_cint (N.of_nat (t_longest t)) 7;
  do b <- write_cints (t_numl t);
  do c <- write_cint (N.of_nat (length (t_map t))) 7;
  Some (a ++ b ++ c ++ flat_map (fun x => write_int x 8) (t_map t)).

(** HuffmanCoder.hpp:309-322 huffman_encode (one literal) *)
Definition huffman_encode (t : htable) (to_eff : list (option nat)) (v : N) : option (list bool) :=
  do e <- nth_error to_eff (N.to_nat (w8 v));
  do e <- e;
  do cw <- nth_error (t_codewords t) e;
  do l <- nth_error (t_lens t) e;
  Some (write_int cw l).

(** ** Decoder side *)
Section HDec.
  Context {S : Type} (rb : S -> bool * S).

  (** BitIStream.hpp:174-188 read_compressed_int<T>() with the default block width 7
      ([dfuel] iterations cover every 64-bit value); T = uint8_t truncates *)
  Definition rd_cint7 (s : S) : option (N * S) := rd_cint rb dfuel 7 s.
  Definition rd_cint7_8 (s : S) : option (N * S) :=
    do (v, s) <- rd_cint7 s; Some (w8 v, s).
  Fixpoint rd_cints (n : nat) (s : S) : option (list N * S) :=
    match n with
    | O => Some ([], s)
    | Datatypes.S n => do (v, s) <- rd_cint7_8 s; do (r, s) <- rd_cints n s; Some (v :: r, s)
    end.
  Fixpoint rd_bytes (n : nat) (s : S) : list N * S :=
    match n with
    | O => ([], s)
    | Datatypes.S n => let (v, s) := rd_int rb 8 s in let (r, s) := rd_bytes n s in (v :: r, s)
    end.
  (** HuffmanCoder.hpp:278-290 huffmantable_decode: numl and ordered_map_from_effective *)
  Definition huffmantable_decode (s : S) : option (list N * list N * S) :=
    do (longest, s) <- rd_cint7_8 s;
    do (numl, s) <- rd_cints (N.to_nat longest) s;
    do (n, s) <- rd_cint7 s;
    let (omap, s) := rd_bytes (N.to_nat n) s in
    Some (numl, omap, s).

  (** HuffmanCoder.hpp:377-397 huffman_decode (one literal): the do-while loop.
      Reading firstcodes past its end is undefined. *)
  Fixpoint huffman_decode_loop (fcs : list N) (fuel : nat) (value : N) (length : nat) (s : S)
    : option (N * nat * S) :=
    match fuel with
    | O => None
    | Datatypes.S fuel =>
        let (b, s) := rb s in
        let value := w64 (2 * value + N.b2n b) in
        do f <- nth_error fcs length;
        if (value <? f)%N then huffman_decode_loop fcs fuel value (length + 1) s
        else Some (value, length, s)
    end.
  Definition huffman_decode (omap : list N) (psl : list (option nat)) (fcs : list N) (s : S)
    : option (N * S) :=
    do (value, len, s) <- huffman_decode_loop fcs (Datatypes.S (length fcs)) 0 0 s;
    do f <- nth_error fcs len;
    do p <- nth_error psl len;
    do p <- p;
    do c <- nth_error omap (p + N.to_nat (value - f));
    Some (c, s).
End HDec.

(** HuffmanCoder.hpp:426-436 gen_ordered_codelength; writing more than alphabet_size entries is
    undefined, and unwritten entries are uninitialised (not reached here) *)
Definition ordered_codelengths (numl : list N) : list nat :=
  flat_map (fun p => repeat (fst p + 1) (N.to_nat (snd p))) (combine (seq 0 (length numl)) numl).
Definition gen_ordered_codelength (n : nat) (numl : list N) : option (list nat) :=
  let l := ordered_codelengths numl in
  if length l =? n then Some l else None.

(** HuffmanCoder.hpp:356-376 gen_prefix_sum_lengths.  [None] entries: the initial fill (the
    guard macro is misspelt, so it is compiled in; its value ~0 is never a useful index). *)
Fixpoint psl_loop (i : nat) (prev : nat) (lens : list nat) (psl : list (option nat)) : option (list (option nat)) :=
  match lens with
  | [] => Some psl
  | l :: r =>
      do psl <- (if prev <? l then match l with O => None | S l' => hset psl l' (Some i) end else Some psl);
      psl_loop (i + 1) l r psl
  end.
Definition gen_prefix_sum_lengths (lens : list nat) (longest : nat) : option (list (option nat)) :=
  match lens with
  | [] => None
  | l :: r =>
      match l with
      | O => None
      | S l' => do psl <- hset (repeat None longest) l' (Some 0); psl_loop 1 l r psl
      end
  end.

(** ** The coder *)
(** state of HuffmanCoder::Encoder (HuffmanCoder.hpp:521-524): alphabet_size 0, 1, or a table *)
Inductive hstate := HNone | HOne | HTab (t : htable) (to_eff : list (option nat)).

(** HuffmanCoder.hpp:525-548, the constructor: state and the bits written *)
Definition huff_init (L : stdlib) (lits : list N) : option (hstate * list bool) :=
  match lits with
  | [] => Some (HNone, [false])
  | _ =>
      let C := count_literals lits in
      if effective_alphabet_size C =? 1 then Some (HOne, [false])
      else
        do t <- gen_huffmantable L C;
        do te <- gen_map_to_effective (t_map t);
        do h <- huffmantable_encode t;
        Some (HTab t te, if length (t_map t) <=? 1 then [false] else true :: h)
  end.

(** HuffmanCoder.hpp:560-569 encode(); other ranges: Coder.hpp:60-77 *)
Definition huff_enc_call (st : hstate) (c : call) : option (list bool) :=
  match c with
  | (v, RLit) =>
      match st with
      | HNone => None
      | HOne => Some (write_int (w8 v) 8)
      | HTab t te => huffman_encode t te v
      end
  | _ => enc_call BitC c
  end.
Fixpoint huff_enc_calls (st : hstate) (cs : list call) : option (list bool) :=
  match cs with
  | [] => Some []
  | c :: cs => do a <- huff_enc_call st c; do b <- huff_enc_calls st cs; Some (a ++ b)
  end.
Definition huff_bits (L : stdlib) (lits : list N) (cs : list call) : option (list bool) :=
  do (st, h) <- huff_init L lits;
  do b <- huff_enc_calls st cs;
  Some (h ++ b).

Section HDecoder.
  Context {S : Type} (rb : S -> bool * S).
  (** HuffmanCoder.hpp:584-598: the decoder's tables, [None] = no table *)
  Definition hdec : Type := option (list N * list (option nat) * list N).
  Definition huff_open (s : S) : option (hdec * S) :=
    let (b, s) := rb s in
    if b then
      do (numl, omap, s) <- huffmantable_decode rb s;
      do lens <- gen_ordered_codelength (length omap) numl;
      do psl <- gen_prefix_sum_lengths lens (length numl);
      do fcs <- gen_first_codes numl;
      Some (Some (omap, psl, fcs), s)
    else Some (None, s).
  (** HuffmanCoder.hpp:604-611 decode() *)
  Definition huff_dec (r : rng) (d : hdec) (s : S) : option (N * S) :=
    match r with
    | RLit => match d with
              | None => Some (rd_int rb 8 s)
              | Some (omap, psl, fcs) => huffman_decode rb omap psl fcs s
              end
    | _ => dec_call rb dfuel BitC r s
    end.
End HDecoder.

Definition huff_coder (L : stdlib) : coder :=
  mk_coder
    (fun lits cs => do b <- huff_bits L lits cs; Some (bits_file b))
    (hdec * bis)
    (fun f => huff_open bis_read_bit (bis_open f))
    (fun r st => let (d, s) := st in
                 do (v, s') <- huff_dec bis_read_bit r d s; Some (v, (d, s')))
    (fun st => bis_eof (snd st)).
