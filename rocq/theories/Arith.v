(** Model of coders/ArithmeticCoder.hpp (the "arithmetic" coder, a range coder whose code blocks are
    64-bit integers). *)
From Verif Require Import Base BitIO IntCodes Coders.
Local Open Scope N_scope.

(** ArithmeticCoder.hpp:52-65 count_alphabet_literals (len_fixup_t = uint32_t, line 20) *)
Definition ac_count (lits : list N) : list N :=
  fold_left (fun C c => upd C (N.to_nat (w8 c)) (w32 (nth (N.to_nat (w8 c)) C 0 + 1)))
            lits (repeat 0 256).

(** ArithmeticCoder.hpp:78-84, the loop of build_intervals over the symbols 1..255: codebook_size is an
    uliteral_t, [mn] the least count seen (symbol 0 is not looked at), [c[i] = c[i] + c[i-1]]. *)
Fixpoint ac_loop (prev : N) (c : list N) (cb mn : N) : list N * N * N :=
  match c with
  | [] => ([], cb, mn)
  | x :: r =>
      let cb := if x =? 0 then cb else w8 (cb + 1) in
      let mn := if x =? 0 then mn else N.min mn x in
      let y := w32 (x + prev) in
      let '(l, cb, mn) := ac_loop y r cb mn in
      (y :: l, cb, mn)
  end.

(** the encoder's members set by build_intervals *)
Record aenc := mk_aenc {
  ae_C : list N;            (* the normalized cumulated counts *)
  ae_cb : N;                (* codebook_size *)
  ae_count : N;             (* literal_count *)
  ae_min : N                (* min_range *)
}.
(** ArithmeticCoder.hpp:72-92 build_intervals.  The least count starts as 2^32-1, so that it is never 0. *)
Definition build_intervals (c : list N) : option aenc :=
  match c with
  | [] => None
  | x0 :: r =>
      let cb0 := if x0 =? 0 then 0 else 1 in
      let '(l, cb, mn) := ac_loop x0 r cb0 (2 ^ 32 - 1) in
      let cum := x0 :: l in
      let C := map (fun y => y / mn) cum in
      Some (mk_aenc C cb (nth 254 cum 0) (nth 254 C 0))
  end.

(** ArithmeticCoder.hpp:137-143: the codebook entries of the symbols i, i+1, ...; write_int without a
    width writes all bits of the type (BitOStream.hpp, write_int<T>: sizeof(T)*8) *)
Fixpoint ac_entries (i prev : N) (C : list N) : list bool :=
  match C with
  | [] => []
  | y :: r => (if y =? prev then [] else write_int i 8 ++ write_int y 32) ++ ac_entries (i + 1) y r
  end.
(** ArithmeticCoder.hpp:119-144 writeCodebook.  The first entry compares with 0 instead of a predecessor. *)
Definition writeCodebook (e : aenc) : list bool :=
  write_int (ae_count e) 32 ++ write_int (ae_cb e) 8 ++ ac_entries 0 0 (ae_C e).

(** ArithmeticCoder.hpp:39-44: lower_bound, upper_bound, literal_counter *)
Record abnd := mk_abnd { ab_lo : N; ab_up : N; ab_cnt : N }.
Definition u64max : N := 2 ^ 64 - 1.

(** ArithmeticCoder.hpp:110,113 and 205: the offset of an interval end; [None]: division by zero *)
Definition ac_offset (range T c : N) : option N :=
  if T =? 0 then None
  else Some (if range <=? T then w64 (range * c) / T else w64 (range / T * c)).

(** ArithmeticCoder.hpp:95-117 setNewBounds: the bits written and the new bounds.  [C[(int) v]] outside
    of the table (a negative char, say) is undefined. *)
Definition setNewBounds (e : aenc) (b : abnd) (v : N) : option (list bool * N * N) :=
  let range := w64 (ab_up b + 2 ^ 64 - ab_lo b) in
  let '(out, lo, range) :=
    if range <? ae_min e then (write_int (ab_lo b) 64, 0, u64max) else ([], ab_lo b, range) in
  do T <- nth_error (ae_C e) 255;
  do c <- nth_error (ae_C e) (N.to_nat v);
  do ou <- ac_offset range T c;
  let up := w64 (lo + ou) in
  if v =? 0 then Some (out, lo, up)
  else do c' <- nth_error (ae_C e) (N.to_nat (v - 1));
       do ol <- ac_offset range T c';
       Some (out, w64 (lo + ol), up).

(** ArithmeticCoder.hpp:168-176 encode() of a literal, with postProcessing (151-155); other ranges:
    Coder.hpp:60-77 *)
Definition ac_enc_call (e : aenc) (b : abnd) (c : call) : option (list bool * abnd) :=
  match c with
  | (v, RLit) =>
      let cnt := w32 (ab_cnt b + 1) in
      do (out, lo, up) <- setNewBounds e b v;
      Some (out ++ (if cnt =? ae_count e then write_int lo 64 ++ write_int u64max 64 else []),
            mk_abnd lo up cnt)
  | _ => do o <- enc_call BitC c; Some (o, b)
  end.
Fixpoint ac_enc_calls (e : aenc) (b : abnd) (cs : list call) : option (list bool) :=
  match cs with
  | [] => Some []
  | c :: cs => do (o, b) <- ac_enc_call e b c; do r <- ac_enc_calls e b cs; Some (o ++ r)
  end.
(** ArithmeticCoder.hpp:158-164 the constructor, and the calls *)
Definition ac_bits (lits : list N) (cs : list call) : option (list bool) :=
  do e <- build_intervals (ac_count lits);
  do r <- ac_enc_calls e (mk_abnd 0 u64max 0) cs;
  Some (writeCodebook e ++ r).

(** ** Decoder *)
(** an [int] read from 32 bits, used as an [unsigned long] *)
Definition sext32 (v : N) : N := if v <? 2 ^ 31 then v else v + (2 ^ 64 - 2 ^ 32).

(** ArithmeticCoder.hpp:182-188: literals, literal_count, literal_counter, decoded, literals_read, min_range *)
Record adec := mk_adec {
  ad_tab : list (N * N); ad_count : N; ad_cnt : N; ad_buf : list N; ad_read : nat; ad_min : N }.

(** ArithmeticCoder.hpp:203-214: the search for the interval that holds [code], from the bounds
    [lower], [upper] with [ilow] = interval_lower_bound: the literal, the new lower and upper bound.  Without a
    match the lower bound stays and no literal is produced. *)
Fixpoint ac_search (code range T lower : N) (tab : list (N * N)) (ilow upper : N)
  : option (list N * N * N) :=
  match tab with
  | [] => Some ([], lower, upper)
  | (c, s) :: tab =>
      do o <- ac_offset range T s;
      let upper := w64 (lower + o) in
      if code <? upper then Some ([c], ilow, upper)
      else ac_search code range T lower tab upper upper
  end.
(** ArithmeticCoder.hpp:200-217: the loop, [n] = literal_count - literal_counter; the text and how often
    literal_counter was increased *)
Fixpoint ac_decode_loop (tab : list (N * N)) (T mn code : N) (n : nat) (lower upper : N)
  : option (list N * nat) :=
  match n with
  | O => Some ([], O)
  | S n =>
      let range := w64 (upper + 2 ^ 64 - lower) in
      if mn <=? range then
        do (w, lower, upper) <- ac_search code range T lower tab lower upper;
        do (l, k) <- ac_decode_loop tab T mn code n lower upper;
        Some (w ++ l, S k)
      else Some ([], O)
  end.
(** ArithmeticCoder.hpp:190-221 decode(code); the codebook is not empty (see [ac_open]) *)
Definition ac_decode (d : adec) (code : N) : option adec :=
  do T <- nth_error (map snd (ad_tab d)) (length (ad_tab d) - 1);
  do (l, k) <- ac_decode_loop (ad_tab d) T (ad_min d) code (N.to_nat (ad_count d - ad_cnt d)) 0 u64max;
  Some (mk_adec (ad_tab d) (ad_count d) (ad_cnt d + N.of_nat k) l 0 (ad_min d)).

Section ADec.
  Context {S : Type} (rb : S -> bool * S).

  (** ArithmeticCoder.hpp:231-235 *)
  Fixpoint rd_entries (n : nat) (s : S) : list (N * N) * S :=
    match n with
    | O => ([], s)
    | Datatypes.S n =>
        let (c, s) := rd_int rb 8 s in
        let (v, s) := rd_int rb 32 s in
        let (r, s) := rd_entries n s in
        ((c, sext32 v) :: r, s)
    end.
  (** ArithmeticCoder.hpp:224-238, the constructor: [literals[codebook_size-1]] of an empty codebook is
      undefined *)
  Definition ac_open (s : S) : option (adec * S) :=
    let (count, s) := rd_int rb 32 s in
    let (cb, s) := rd_int rb 8 s in
    let (tab, s) := rd_entries (N.to_nat cb) s in
    match tab with
    | [] => None
    | _ => do mn <- nth_error (map snd tab) (length tab - 1);
           Some (mk_adec tab count 0 [] 0 mn, s)
    end.
  (** ArithmeticCoder.hpp:246-250 and 256-260 *)
  Definition ac_next (d : adec) (s : S) : option (adec * S) :=
    let (code, s) := rd_int rb 64 s in
    if code =? u64max then Some (d, s) else do d <- ac_decode d code; Some (d, s).
  (** ArithmeticCoder.hpp:242-264; reading a std::string at its size yields NUL, behind it is undefined *)
  Definition ac_dec_lit (d : adec) (s : S) : option (N * adec * S) :=
    do (d, s) <- match ad_buf d with [] => ac_next d s | _ => Some (d, s) end;
    do v <- nth_error (ad_buf d ++ [0]) (ad_read d);
    let rd := Datatypes.S (ad_read d) in
    let d := mk_adec (ad_tab d) (ad_count d) (ad_cnt d) (ad_buf d) rd (ad_min d) in
    do (d, s) <- (if (rd =? length (ad_buf d))%nat then ac_next d s else Some (d, s));
    Some (v, d, s).
  (** decode(): literals above, other ranges Coder.hpp:126-142 *)
  Definition ac_dec (r : rng) (d : adec) (s : S) : option (N * adec * S) :=
    match r with
    | RLit => ac_dec_lit d s
    | _ => do (v, s) <- dec_call rb dfuel BitC r s; Some (v, d, s)
    end.
End ADec.

Definition arith_coder : coder :=
  mk_coder
    (fun lits cs => do b <- ac_bits lits cs; Some (bits_file b))
    (adec * bis)
    (fun f => ac_open bis_read_bit (bis_open f))
    (fun r st => let (d, s) := st in
                 do (v, d, s) <- ac_dec bis_read_bit r d s; Some (v, (d, s)))
    (fun st => bis_eof (snd st)).
