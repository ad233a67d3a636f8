(** Models of compressors/lzss/LZSSFactors.hpp, LZSSCoding.hpp, LZSSLiterals.hpp,
    LZSSDecodeBackBuffer.hpp and LZSSSlidingWindowCompressor.hpp.  Text positions are
    [nat]s; values handed to a coder are converted to [N]. *)
From Verif Require Import Base BitIO IntCodes Coders.
Local Open Scope nat_scope.

(** LZSSFactors.hpp:13-20 Factor *)
Record factor := mk_f { f_pos : nat; f_src : nat; f_len : nat }.
Notation nn := N.of_nat.

(** ** FactorBuffer *)
(** LZSSFactors.hpp:35-40, 42-49: m_shortest_factor starts at INDEX_MAX (def.hpp:117,
    2^32-1 in the default configuration) *)
Definition shortest_factor (fs : list factor) : N :=
  fold_left (fun m f => N.min m (nn (f_len f))) fs (2 ^ 32 - 1)%N.
Definition longest_factor (fs : list factor) : N :=
  fold_left (fun m f => N.max m (nn (f_len f))) fs 0%N.

(** LZSSFactors.hpp:90-100: the pos -> factor map, as a list of factor numbers + 1 *)
Fixpoint fmap_range (m : list nat) (pos len v : nat) : list nat :=
  match len with
  | O => m
  | S len' => upd (fmap_range m pos len' v) (pos + len') v
  end.
Fixpoint fmap_fill (m : list nat) (i : nat) (fs : list factor) : list nat :=
  match fs with
  | [] => m
  | f :: fs' => fmap_fill (fmap_range m (f_pos f) (f_len f) (i + 1)) (i + 1) fs'
  end.
Definition build_fmap (fs : list factor) : list nat :=
  match rev fs with
  | [] => []
  | l :: _ => fmap_fill (repeat 0 (f_pos l + f_len l)) 0 fs
  end.
(** LZSSFactors.hpp:107-123: follow the source; result (src, depth).  Out of fuel = the
    while loop does not end. *)
Fixpoint flat_walk (fuel : nat) (fmap : list nat) (fs : list factor) (flen src depth : nat)
  : option (nat * nat) :=
  match fuel with
  | O => None
  | S fuel =>
      match nth_error fmap src with
      | Some (S k) =>
          match nth_error fs k with
          | None => None
          | Some s =>
              let d := src - f_pos s in
              if f_src s + d + flen <=? f_src s + f_len s
              then flat_walk fuel fmap fs flen (f_src s + d) (depth + 1)
              else Some (src, depth)
          end
      | _ => Some (src, depth)
      end
  end.
(** LZSSFactors.hpp:104-131: the loop over all factors, updating in place *)
Fixpoint flat_loop (fuel : nat) (fmap : list nat) (fs : list factor) (i n : nat) : option (list factor) :=
  match n with
  | O => Some fs
  | S n' =>
      match nth_error fs i with
      | None => None
      | Some f =>
          do (src, depth) <- flat_walk fuel fmap fs (f_len f) (f_src f) 0;
          let fs' := if depth =? 0 then fs else upd fs i (mk_f (f_pos f) src (f_len f)) in
          flat_loop fuel fmap fs' (i + 1) n'
      end
  end.
(** LZSSFactors.hpp:81-135 flatten() *)
Definition flatten (fuel : nat) (fs : list factor) : option (list factor) :=
  match fs with
  | [] => Some []
  | _ => flat_loop fuel (build_fmap fs) fs 0 (length fs)
  end.

(** ** encode_text (LZSSCoding.hpp:18-93) *)
(** :28-39 *)
Fixpoint fdist_loop (p d : nat) (fs : list factor) : nat * nat :=
  match fs with
  | [] => (p, d)
  | f :: fs' => fdist_loop (f_pos f + f_len f) (Nat.max d (f_pos f - p)) fs'
  end.
Definition fdist_max (n : nat) (fs : list factor) : nat :=
  let (p, d) := fdist_loop 0 0 fs in Nat.max d (n - p).
(** :70-73, :89-92: literals text[p..q) *)
Definition lits_between (text : list N) (p q : nat) : list N := firstn (q - p) (skipn p text).
Definition lit_calls (l : list N) : list call := map (fun c => (c, RLit)) l.

(** :54-93: the walk over factors *)
Fixpoint enc_factors (text : list N) (n : nat) (fmin fmax : N) (fd : nat) (p : nat) (fs : list factor)
  : list call :=
  match fs with
  | [] => (if p <? n then [(1%N, RBit); (nn (n - p), RInt 0 (nn fd))] else [])
          ++ lit_calls (lits_between text p n)
  | f :: fs' =>
      (if f_pos f =? p then [(0%N, RBit)] else [(1%N, RBit); (nn (f_pos f - p), RInt 0 (nn fd))])
      ++ lit_calls (lits_between text p (f_pos f))
      ++ [(nn (f_src f), RInt 0 (nn n)); (nn (f_len f), RInt fmin fmax)]
      ++ enc_factors text n fmin fmax fd (f_pos f + f_len f) fs'
  end.
(** :18-93 *)
Definition encode_text (text : list N) (fs : list factor) : list call :=
  let n := length text in
  let fmin := shortest_factor fs in
  let fmax := longest_factor fs in
  let fd := fdist_max n fs in
  [(nn n, RInt 0 (2 ^ 32 - 1)); (fmin, RInt 0 (nn n)); (fmax, RInt 0 (nn n)); (nn fd, RInt 0 (nn n))]
  ++ enc_factors text n fmin fmax fd 0 fs.

(** ** TextLiterals (LZSSLiterals.hpp:11-51): the literals announced to the coder *)
Fixpoint skip_factors (p : nat) (fs : list factor) : nat * list factor :=
  match fs with
  | f :: fs' => if p =? f_pos f then skip_factors (p + f_len f) fs' else (p, fs)
  | [] => (p, [])
  end.
Fixpoint text_literals (fuel : nat) (text : list N) (p : nat) (fs : list factor) : list N :=
  let (p, fs) := skip_factors p fs in
  match fuel with
  | O => []
  | S fuel => match nth_error text p with
              | None => []
              | Some c => c :: text_literals fuel text (p + 1) fs
              end
  end.

(** ** decode_text (LZSSCoding.hpp:96-142; LCPCompressor.hpp:22-66 is the same loop) *)
(** what the loop feeds into the decode buffer *)
Inductive event := ELit (c : N) | EFac (src len : N).

(** :118-121 *)
Fixpoint dec_lits (c : coder) (num : nat) (s : c_st c) : option (list event * c_st c) :=
  match num with
  | O => Some ([], s)
  | S num' => do (v, s1) <- c_dec c RLit s;
              do (r, s2) <- dec_lits c num' s1;
              Some (ELit v :: r, s2)
  end.
(** :113-131 *)
Fixpoint dec_events (c : coder) (fuel : nat) (n fmin fmax fd : N) (s : c_st c) : option (list event) :=
  if c_eof c s then Some []
  else match fuel with
       | O => None
       | S fuel =>
           do (b, s1) <- c_dec c RBit s;
           do (num, s2) <- (if (b =? 0)%N then Some (0%N, s1)
                            else do (v, s2) <- c_dec c (RInt 0 fd) s1; Some (w32 v, s2));
           do (ls, s3) <- dec_lits c (N.to_nat num) s2;
           if c_eof c s3 then do r <- dec_events c fuel n fmin fmax fd s3; Some (ls ++ r)
           else
             do (src, s4) <- c_dec c (RInt 0 n) s3;
             do (len, s5) <- c_dec c (RInt fmin fmax) s4;
             do r <- dec_events c fuel n fmin fmax fd s5;
             Some (ls ++ EFac (w32 src) (w32 len) :: r)
       end.
(** :96-131; gives text_len and the events *)
Definition decode_events (c : coder) (fuel : nat) (f : list N) : option (N * list event) :=
  do s0 <- c_open c f;
  do (n, s1) <- c_dec c (RInt 0 (2 ^ 32 - 1)) s0;
  let n := w32 n in
  do (fmin, s2) <- c_dec c (RInt 0 n) s1;
  do (fmax, s3) <- c_dec c (RInt 0 n) s2;
  do (fd, s4) <- c_dec c (RInt 0 n) s3;
  do es <- dec_events c fuel n (w32 fmin) (w32 fmax) (w32 fd) s4;
  Some (n, es).

(** ** DecodeBackBuffer (LZSSDecodeBackBuffer.hpp:10-43); writing or reading outside the
    buffer is undefined *)
Definition aput (buf : list N) (i : nat) (v : N) : option (list N) :=
  if i <? length buf then Some (upd buf i v) else None.
Fixpoint back_factor (buf : list N) (cur pos num : nat) : option (list N * nat) :=
  match num with
  | O => Some (buf, cur)
  | S num' => do v <- nth_error buf pos;
              do buf' <- aput buf cur v;
              back_factor buf' (cur + 1) (pos + 1) num'
  end.
Fixpoint back_run (buf : list N) (cur : nat) (es : list event) : option (list N) :=
  match es with
  | [] => Some buf
  | ELit c :: es' => do buf' <- aput buf cur c; back_run buf' (cur + 1) es'
  | EFac src len :: es' => do (buf', cur') <- back_factor buf cur (N.to_nat src) (N.to_nat len);
                           back_run buf' cur' es'
  end.

(** lzss_lcp: LZSSLCPCompressor.hpp:120-136 (encoding part of compress, and decompress) *)
Definition lzss_encode (c : coder) (text : list N) (fs : list factor) : option (list N) :=
  c_enc c (text_literals (S (length text)) text 0 fs) (encode_text text fs).
Definition lzss_decode (c : coder) (fuel : nat) (f : list N) : option (list N) :=
  do (n, es) <- decode_events c fuel f; back_run (repeat 0%N (N.to_nat n)) 0 es.

(** ** LZSSSlidingWindowCompressor.hpp *)
(** :66-69: length of the match of buf[k..] with buf[ahead..] *)
Fixpoint match_len (a b : list N) : nat :=
  match a, b with
  | x :: a', y :: b' => if (x =? y)%N then S (match_len a' b') else O
  | _, _ => O
  end.
(** :62-77: k runs from [k] up to ahead-1; best so far (fsrc - buf_off, fnum) *)
Fixpoint win_search (buf : list N) (ahead thr : nat) (ks : list nat) (best : nat * nat) : nat * nat :=
  match ks with
  | [] => best
  | k :: ks' =>
      let j := match_len (skipn k buf) (skipn ahead buf) in
      win_search buf ahead thr ks'
        (if (thr <=? j) && (snd best <? j) then (k, j) else best)
  end.
(** :100-115: state (buf, ahead, eof, rest of the stream, buf_off) *)
Record win := mk_win { w_buf : list N; w_ahead : nat; w_eof : bool; w_ins : list N; w_off : nat }.
Definition win_adv1 (window : nat) (s : win) : win :=
  if w_ahead s <? window then mk_win (w_buf s) (w_ahead s + 1) (w_eof s) (w_ins s) (w_off s)
  else match w_eof s, w_ins s with
       | false, c :: ins' => mk_win (tl (w_buf s) ++ [c]) (w_ahead s) false ins' (w_off s + 1)
       | _, _ => mk_win (w_buf s) (w_ahead s + 1) true (w_ins s) (w_off s)
       end.
Fixpoint win_adv (window : nat) (k : nat) (s : win) : win :=
  match k with O => s | S k' => win_adv window k' (win_adv1 window s) end.
(** :58-116 *)
Fixpoint win_loop (fuel window thr : nat) (s : win) : option (list call) :=
  if w_ahead s <? length (w_buf s) then
    match fuel with
    | O => None
    | S fuel =>
        let ahead := w_ahead s in
        let k0 := if window <? ahead then ahead - window else 0 in
        let (k, fnum) := win_search (w_buf s) ahead thr (seq k0 (ahead - k0)) (0, 0) in
        if 0 <? fnum then
          do r <- win_loop fuel window thr (win_adv window fnum s);
          Some ((1%N, RBit) :: (nn (ahead - k), RInt 0 (nn (w_off s + ahead)))
                :: (nn fnum, RInt 0 (nn window)) :: r)
        else
          do r <- win_loop fuel window thr (win_adv window 1 s);
          Some ((0%N, RBit) :: (nth ahead (w_buf s) 0%N, RLit) :: r)
    end
  else Some [].
(** :38-117 compress; buf_off starts at 0; the buffer is filled with 2*window bytes *)
Definition win_compress (c : coder) (window thr : nat) (text : list N) : option (list N) :=
  do cs <- win_loop (S (length text)) window thr
             (mk_win (firstn (2 * window) text) 0 false (skipn (2 * window) text) 0);
  c_enc c [] cs.

(** :119-142 decompress *)
Fixpoint win_copy (text : list N) (src num : nat) : option (list N) :=
  match num with
  | O => Some text
  | S num' => do v <- nth_error text src; win_copy (text ++ [v]) (src + 1) num'
  end.
Fixpoint win_dec (c : coder) (fuel : nat) (window : nat) (text : list N) (s : c_st c) : option (list N) :=
  if c_eof c s then Some text
  else match fuel with
       | O => None
       | S fuel =>
           do (b, s1) <- c_dec c RBit s;
           if (b =? 0)%N then
             do (v, s2) <- c_dec c RLit s1; win_dec c fuel window (text ++ [v]) s2
           else
             do (delta, s2) <- c_dec c (RInt 0 (nn (length text))) s1;
             do (fnum, s3) <- c_dec c (RInt 0 (nn window)) s2;
             if (nn (length text) <? delta)%N then None
             else
               do text' <- win_copy text (length text - N.to_nat delta) (N.to_nat fnum);
               win_dec c fuel window text' s3
       end.
Definition win_decompress (c : coder) (fuel window : nat) (f : list N) : option (list N) :=
  do s <- c_open c f; win_dec c fuel window [] s.
