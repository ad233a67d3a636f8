(** util/Counter.hpp and coders/SLECoder.hpp (static low entropy coder). *)
From Verif Require Import Base BitIO IntCodes Coders.
Local Open Scope N_scope.

(** ** util/Counter.hpp *)
(** Counter.hpp:17: the unordered_map, as an association list without repeated keys *)
Definition counter : Type := list (N * N).
(** Counter.hpp:37-39 getCount, map[item] (inserting 0 when absent is not observable here) *)
Fixpoint getCount (m : counter) (x : N) : N :=
  match m with
  | [] => 0
  | (y, c) :: m => if y =? x then c else getCount m x
  end.
(** Counter.hpp:32-34 setCount *)
Fixpoint setCount (m : counter) (x n : N) : counter :=
  match m with
  | [] => [(x, n)]
  | (y, c) :: m => if y =? x then (y, n) :: m else (y, c) :: setCount m x n
  end.
(** Counter.hpp:24-29 increase *)
Definition increase (m : counter) (x : N) : counter := setCount m x (w64 (getCount m x + 1)).
(** Counter.hpp:42-44 getNumItems *)
Definition getNumItems (m : counter) : N := N.of_nat (length m).
(** Counter.hpp:49-58 the comparison *)
Definition cnt_before (a b : N * N) : bool :=
  if negb (snd a =? snd b) then snd b <? snd a else fst a <? fst b.
(** Counter.hpp:47-69 getSorted.  The comparison is a strict total order on pairs with different
    keys, so the result of std::sort is determined; insertion sort is used here. *)
Fixpoint cnt_insert (a : N * N) (l : list (N * N)) : list (N * N) :=
  match l with
  | [] => [a]
  | b :: l => if cnt_before b a then b :: cnt_insert a l else a :: b :: l
  end.
Fixpoint getSorted (m : counter) : list (N * N) :=
  match m with [] => [] | a :: m => cnt_insert a (getSorted m) end.
(** Counter.hpp:75-86 createRanking with num = SIZE_MAX: item -> place in getSorted() *)
Definition createRanking (m : counter) : list (N * N) :=
  combine (map fst (getSorted m)) (map N.of_nat (seq 0 (length m))).
(** unordered_map::find *)
Fixpoint rank_of (r : list (N * N)) (x : N) : option N :=
  match r with
  | [] => None
  | (y, i) :: r => if y =? x then Some i else rank_of r x
  end.

(** ** SLECoder.hpp *)
(** SLECoder.hpp:13 kmer_mask = 0xFF << 56 *)
Definition kmer_mask : N := N.shiftl 255 56.
(** SLECoder.hpp:15-17 *)
Definition is_kmer (x : N) : bool := N.land x kmer_mask =? kmer_mask.
(** SLECoder.hpp:19-27 compile_kmer; [rk] is the k-mer reversed (kmer[k-1-i], i = 0, 1, ...);
    shifting by 64 or more is undefined *)
Fixpoint compile_loop (i : nat) (rk : list N) (sym : N) : option N :=
  match rk with
  | [] => Some sym
  | c :: rk => if (8 * i <? 64)%nat
               then compile_loop (i + 1) rk (N.lor sym (w64 (N.shiftl c (N.of_nat (8 * i)))))
               else None
  end.
Definition compile_kmer (kmer : list N) : option N :=
  do s <- compile_loop 0 (rev kmer) 0; Some (N.lor s kmer_mask).
(** SLECoder.hpp:29-33 decompile_kmer *)
Definition decompile_kmer (k : nat) (x : N) : option (list N) :=
  if (k <=? 8)%nat
  then Some (rev (map (fun i => N.land (N.shiftr x (N.of_nat (8 * i))) 255) (seq 0 k)))
  else None.

(** SLECoder.hpp:58-69 kmer_roll (kmer_full: :54-56).  The buffer m_kmer[0 .. m_kmer_cur) as a
    list.  k = 0: m_kmer[0] is behind the array. *)
Definition kmer_roll (k : nat) (buf : list N) (c : N) : option (option N * list N) :=
  if (length buf =? k)%nat
  then match buf with
       | [] => None
       | x :: t => Some (Some x, t ++ [c])
       end
  else Some (None, buf ++ [c]).

(** SLECoder.hpp:93-120: counting the announced literals ([pos]: their positions) *)
Fixpoint sle_count (k : nat) (lits : list (N * N)) (last : N) (buf : list N) (alphabet kmers : counter)
  : option (counter * counter) :=
  match lits with
  | [] => Some (alphabet, kmers)
  | (c, pos) :: lits =>
      do bk <- (if (1 <? k)%nat then
                  let buf := if negb (pos =? last + 1) then [] else buf in
                  do (_, buf) <- kmer_roll k buf c;
                  if (length buf =? k)%nat
                  then do x <- compile_kmer buf; Some (buf, increase kmers x)
                  else Some (buf, kmers)
                else Some (buf, kmers));
      let (buf, kmers) := bk in
      sle_count k lits pos buf (increase alphabet c) kmers
  end.

(** [1UL << n]; shifting by 64 is undefined and yields any value [ub] *)
Definition shl1 (ub n : N) : N := if n <? 64 then 2 ^ n else ub.

(** SLECoder.hpp:135-138: no more than eta (the decrement comes first, so eta = 0 would wrap) *)
Fixpoint merge_kmers (eta : N) (l : list (N * N)) (alphabet : counter) : counter :=
  match l with
  | [] => alphabet
  | (x, n) :: l =>
      let alphabet := setCount alphabet x n in
      let eta := w64 (eta + (2 ^ 64 - 1)) in
      if eta =? 0 then alphabet else merge_kmers eta l alphabet
  end.

(** SLECoder.hpp:80-166, the constructor: ranking, m_sigma_bits, bits written *)
Definition sle_alphabet (k : nat) (ub : N) (lits : list (N * N)) : option counter :=
  do (alphabet, kmers) <- sle_count k lits 0 [] [] [];
  Some (if (1 <? k)%nat then
          let sigma := getNumItems alphabet in
          let sigma_bits := bits_for (w64 (sigma + (2 ^ 64 - 1))) in
          let add := if shl1 ub sigma_bits =? sigma then 1 else 2 in
          let eta := w64 (shl1 ub (sigma_bits + add) + (2 ^ 64 - sigma)) in
          merge_kmers eta (getSorted kmers) alphabet
        else alphabet).
Definition sle_sigma_bits (alphabet : counter) : nat :=
  bits_forn (w64 (getNumItems alphabet + (2 ^ 64 - 1))).
(** BitOStream.hpp:150 write_compressed_int, default block width 7 *)
Fixpoint write_syms (l : list N) : option (list bool) :=
  match l with
  | [] => Some []
  | x :: l => do a <- write_cint x 7; do b <- write_syms l; Some (a ++ b)
  end.
Definition sle_header (alphabet : counter) : option (list bool) :=
  do a <- write_cint (getNumItems alphabet) 7;
  do b <- write_syms (map fst (getSorted alphabet));
  Some (a ++ b).

(** SLECoder.hpp:192-248 encode_sym, the code of rank [r] *)
Definition rank_bits (sb : nat) (r : N) : list bool :=
  if (sb <? 4)%nat then write_int r sb
  else if (sb <? 6)%nat then
    if r <? 4 then false :: write_int r 2 else true :: write_int r sb
  else if (sb =? 6)%nat then
    if r <? 8 then write_int 0 2 ++ write_int r 3
    else if r <? 16 then write_int 1 2 ++ write_int (r - 8) 3
    else if r <? 32 then write_int 2 2 ++ write_int (r - 16) 4
    else write_int 3 2 ++ write_int r sb
  else
    if r <? 4 then write_int 0 3 ++ write_int r 2
    else if r <? 8 then write_int 1 3 ++ write_int (r - 4) 2
    else if r <? 12 then write_int 2 3 ++ write_int (r - 8) 2
    else if r <? 16 then write_int 3 3 ++ write_int (r - 12) 2
    else if r <? 24 then write_int 4 3 ++ write_int (r - 16) 3
    else if r <? 32 then write_int 5 3 ++ write_int (r - 24) 3
    else if r <? 40 then write_int 6 3 ++ write_int (r - 32) 3
    else write_int 7 3 ++ write_int r sb.
(** SLECoder.hpp:193 m_ranking[x]: 0 for an unknown symbol (the insertion of the new key is
    not observable: later lookups of it yield the same 0, and only literals are looked up unseen) *)
Definition encode_sym (rk : list (N * N)) (sb : nat) (x : N) : list bool :=
  rank_bits sb (match rank_of rk x with Some r => r | None => 0 end).
(** SLECoder.hpp:182-190 flush_kmer *)
Definition flush_kmer (rk : list (N * N)) (sb : nat) (buf : list N) : list bool :=
  flat_map (encode_sym rk sb) buf.

(** the calls: as in Coders.v, and Range.hpp:56-70 MinDistributedRange *)
Inductive srng := SR (r : rng) | SMin (mn mx : N).
Definition scall : Type := N * srng.

(** SLECoder.hpp:278-302 encode(v, MinDistributedRange) *)
Definition mind_bits (v mn mx : N) : list bool :=
  let v := w64 (v + 2 ^ 64 - mn) in
  let bits := bits_forn (w64 (mx + 2 ^ 64 - mn)) in
  if (bits <=? 5)%nat then write_int v bits
  else if v <? 8 then write_int 0 2 ++ write_int v 3
  else if v <? 16 then write_int 1 2 ++ write_int (v - 8) 3
  else if v <? 32 then write_int 2 2 ++ write_int (v - 16) 4
  else write_int 3 2 ++ write_int v bits.

(** SLECoder.hpp:251-308 encode(): bits written and the new buffer.  Literals: :252-269;
    Range: :272-275 (as the bit coder); BitRange: :305-308. *)
Definition sle_enc_call (k : nat) (rk : list (N * N)) (sb : nat) (buf : list N) (c : scall)
  : option (list bool * list N) :=
  match c with
  | (v, SR RLit) =>
      do (out, buf) <- kmer_roll k buf (w8 v);
      let b := match out with Some x => encode_sym rk sb x | None => [] end in
      if (length buf =? k)%nat then
        do x <- compile_kmer buf;
        match rank_of rk x with
        | Some _ => Some (b ++ encode_sym rk sb x, [])
        | None => Some (b, buf)
        end
      else Some (b, buf)
  | (v, SR (RInt mn mx)) => do b <- enc_call BitC (v, RInt mn mx); Some (flush_kmer rk sb buf ++ b, [])
  | (v, SMin mn mx) => Some (flush_kmer rk sb buf ++ mind_bits v mn mx, [])
  | (v, SR RBit) => do b <- enc_call BitC (v, RBit); Some (flush_kmer rk sb buf ++ b, [])
  end.
(** all calls, then the destructor SLECoder.hpp:173-179 *)
Fixpoint sle_enc_calls (k : nat) (rk : list (N * N)) (sb : nat) (buf : list N) (cs : list scall)
  : option (list bool) :=
  match cs with
  | [] => Some (flush_kmer rk sb buf)
  | c :: cs => do (b, buf) <- sle_enc_call k rk sb buf c;
               do r <- sle_enc_calls k rk sb buf cs;
               Some (b ++ r)
  end.
(** everything an SLE encoder writes *)
Definition sle_bits (k : nat) (ub : N) (lits : list (N * N)) (cs : list scall) : option (list bool) :=
  do al <- sle_alphabet k ub lits;
  do h <- sle_header al;
  do b <- sle_enc_calls k (createRanking al) (sle_sigma_bits al) [] cs;
  Some (h ++ b).

Section SDec.
  Context {S : Type} (rb : S -> bool * S).
  (** the decoder: m_sigma_bits, m_inv_ranking, and the rest m_kmer[m_kmer_read .. m_k) of the
      k-mer being read (empty when m_kmer_read >= m_k) *)
  Record sdec := mk_sdec { sd_bits : nat; sd_inv : list N; sd_rest : list N }.
  Fixpoint read_syms (n : nat) (s : S) : option (list N * S) :=
    match n with
    | O => Some ([], s)
    | Datatypes.S n => do (x, s) <- rd_cint rb dfuel 7 s;
                       do (l, s) <- read_syms n s;
                       Some (x :: l, s)
    end.
  (** SLECoder.hpp:326-347 the constructor *)
  Definition sle_open (s : S) : option (sdec * S) :=
    do (sigma, s) <- rd_cint rb dfuel 7 s;
    do (inv, s) <- read_syms (N.to_nat sigma) s;
    Some (mk_sdec (bits_forn (w64 (sigma + (2 ^ 64 - 1)))) inv [], s).
  (** SLECoder.hpp:375-404: reading a rank *)
  Definition add_int (base : N) (n : nat) (s : S) : N * S :=
    let (v, s) := rd_int rb n s in (base + v, s).
  Definition read_rank (sb : nat) (s : S) : N * S :=
    if (sb <? 4)%nat then rd_int rb sb s
    else if (sb <? 6)%nat then
      let (b, s) := rb s in if b then rd_int rb sb s else rd_int rb 2 s
    else if (sb =? 6)%nat then
      let (x, s) := rd_int rb 2 s in
      match x with
      | 0 => rd_int rb 3 s
      | 1 => add_int 8 3 s
      | 2 => add_int 16 4 s
      | _ => rd_int rb sb s
      end
    else
      let (x, s) := rd_int rb 3 s in
      match x with
      | 0 => rd_int rb 2 s
      | 1 => add_int 4 2 s
      | 2 => add_int 8 2 s
      | 3 => add_int 12 2 s
      | 4 => add_int 16 3 s
      | 5 => add_int 24 3 s
      | 6 => add_int 32 3 s
      | _ => rd_int rb sb s
      end.
  (** SLECoder.hpp:369-416 decode(LiteralRange); reading m_inv_ranking past its end is undefined *)
  Definition sle_dec_lit (k : nat) (d : sdec) (s : S) : option (N * sdec * S) :=
    match sd_rest d with
    | c :: rest => Some (c, mk_sdec (sd_bits d) (sd_inv d) rest, s)
    | [] =>
        let (r, s) := read_rank (sd_bits d) s in
        do x <- nth_error (sd_inv d) (N.to_nat r);
        if is_kmer x then
          do km <- decompile_kmer k x;
          match km with
          | [] => None
          | c :: rest => Some (c, mk_sdec (sd_bits d) (sd_inv d) rest, s)
          end
        else Some (w8 x, d, s)
    end.
  (** SLECoder.hpp:425-444 decode(MinDistributedRange) *)
  Definition mind_read (mn mx : N) (s : S) : N * S :=
    let bits := bits_forn (w64 (mx + 2 ^ 64 - mn)) in
    let (v, s) :=
      if (bits <=? 5)%nat then rd_int rb bits s
      else
        let (x, s) := rd_int rb 2 s in
        match x with
        | 0 => rd_int rb 3 s
        | 1 => add_int 8 3 s
        | 2 => add_int 16 4 s
        | _ => rd_int rb bits s
        end
    in (w64 (mn + v), s).
  (** SLECoder.hpp:368-450 decode(); reset_kmer (:321-323) for everything but literals *)
  Definition sle_dec (k : nat) (r : srng) (d : sdec) (s : S) : option (N * sdec * S) :=
    let d0 := mk_sdec (sd_bits d) (sd_inv d) [] in
    match r with
    | SR RLit => sle_dec_lit k d s
    | SR r => do (v, s) <- dec_call rb dfuel BitC r s; Some (v, d0, s)
    | SMin mn mx => let (v, s) := mind_read mn mx s in Some (v, d0, s)
    end.
End SDec.

(** SLECoder.hpp:358-366 eof() *)
Definition sle_eof (d : sdec) (s : bis) : bool :=
  match sd_rest d with [] => bis_eof s | _ => false end.

(** The coder as seen by the compressors: [pos i] is the position announced with the i-th
    literal, [mind mn mx] says whether the compressor passes a MinDistributedRange for that range. *)
Definition sle_rng (mind : N -> N -> bool) (r : rng) : srng :=
  match r with
  | RInt mn mx => if mind mn mx then SMin mn mx else SR r
  | _ => SR r
  end.
Definition sle_coder (k : nat) (ub : N) (pos : nat -> N) (mind : N -> N -> bool) : coder :=
  mk_coder
    (fun lits cs => do b <- sle_bits k ub (combine lits (map pos (seq 0 (length lits))))
                              (map (fun c => (fst c, sle_rng mind (snd c))) cs);
                    Some (bits_file b))
    (sdec * bis)
    (fun f => sle_open bis_read_bit (bis_open f))
    (fun r st => do (v, d, s) <- sle_dec bis_read_bit k (sle_rng mind r) (fst st) (snd st);
                 Some (v, (d, s)))
    (fun st => sle_eof (fst st) (snd st)).
