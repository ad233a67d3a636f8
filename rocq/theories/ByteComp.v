(** Models of the byte-oriented compressors: RunLengthEncoder, MTFCompressor,
    LiteralEncoder, NoopCompressor. *)
From Verif Require Import Base BitIO IntCodes Coders.
Local Open Scope N_scope.

(** ** RunLengthEncoder.hpp, instantiated with char_type = char (signed).
    RunLengthEncoder.hpp:24: [while(is.peek() == c) { ++run; is.get(); }].
    peek() yields 0..255, or -1 at the end of the stream; [c] is promoted as a
    signed char, so a byte >= 128 is negative and never equals a peeked byte, and
    byte 255 (= -1) equals the end-of-file value: the loop then never ends,
    which is the [None] outcome. *)
Fixpoint rle_run (c : N) (l : list N) : option (N * list N) :=
  match l with
  | [] => if c =? 255 then None else Some (0, [])
  | p :: l' =>
      if (c <? 128) && (p =? c)
      then match rle_run c l' with
           | Some (run, r) => Some (run + 1, r)
           | None => None
           end
      else Some (0, l)
  end.

(** RunLengthEncoder.hpp:21-31 *)
Fixpoint rle_enc_loop (fuel : nat) (offset prev : N) (l : list N) : option (list N) :=
  match l with
  | [] => Some []
  | c :: l =>
      match fuel with
      | O => None
      | S fuel =>
          if prev =? c then
            do (run, l1) <- rle_run c l;
            do vb <- write_vbyte (w64 (run + offset));
            do r <- rle_enc_loop fuel offset c l1;
            Some (c :: vb ++ r)
          else
            do r <- rle_enc_loop fuel offset c l;
            Some (c :: r)
      end
  end.

(** RunLengthEncoder.hpp:15-32 rle_encode *)
Definition rle_encode (offset : N) (l : list N) : option (list N) :=
  match l with
  | [] => Some []
  | prev :: l => do r <- rle_enc_loop (length l) offset prev l; Some (prev :: r)
  end.

(** RunLengthEncoder.hpp:42-49 *)
Fixpoint rle_dec_loop (fuel : nat) (offset prev : N) (l : list N) : option (list N) :=
  match l with
  | [] => Some []
  | c :: l =>
      match fuel with
      | O => None
      | S fuel =>
          if prev =? c then
            do (x, l1) <- read_vbyte l;
            do r <- rle_dec_loop fuel offset c l1;
            Some (repeat c (N.to_nat (w64 (x + 2 ^ 64 - offset))) ++ c :: r)
          else
            do r <- rle_dec_loop fuel offset c l;
            Some (c :: r)
      end
  end.

(** RunLengthEncoder.hpp:36-50 rle_decode *)
Definition rle_decode (offset : N) (l : list N) : option (list N) :=
  match l with
  | [] => Some []
  | prev :: l => do r <- rle_dec_loop (length l) offset prev l; Some (prev :: r)
  end.

(** ** MTFCompressor.hpp *)
(** MTFCompressor.hpp:20-22 and :38-40: [for(j = i; j > 0; --j) table[j] = table[j-1]] *)
Fixpoint mtf_shift (j : nat) (table : list N) : list N :=
  match j with
  | O => table
  | S j' => mtf_shift j' (upd table j (nth j' table 0))
  end.

(** MTFCompressor.hpp:18-19: the search loop; [None]: not found (the DCHECK) *)
Fixpoint mtf_find (v : N) (table : list N) : option nat :=
  match table with
  | [] => None
  | x :: t => if x =? v then Some O else option_map S (mtf_find v t)
  end.

(** MTFCompressor.hpp:16-29 mtf_encode_char *)
Definition mtf_encode_char (v : N) (table : list N) : option (N * list N) :=
  match mtf_find v table with
  | Some i => Some (N.of_nat i, upd (mtf_shift i table) 0 v)
  | None => None
  end.

(** MTFCompressor.hpp:35-43 mtf_decode_char; indexing outside the table is [None] *)
Definition mtf_decode_char (v : N) (table : list N) : option (N * list N) :=
  match nth_error table (N.to_nat v) with
  | Some r => Some (r, upd (mtf_shift (N.to_nat v) table) 0 r)
  | None => None
  end.

(** MTFCompressor.hpp:48-50 std::iota *)
Definition mtf_table0 : list N := map N.of_nat (seq 0 256).

Fixpoint mtf_loop (step : N -> list N -> option (N * list N)) (table : list N) (l : list N)
  : option (list N) :=
  match l with
  | [] => Some []
  | c :: l => do (x, table') <- step c table;
              do r <- mtf_loop step table' l;
              Some (x :: r)
  end.

(** MTFCompressor.hpp:45-56 mtf_encode and :58-69 mtf_decode *)
Definition mtf_encode (l : list N) : option (list N) := mtf_loop mtf_encode_char mtf_table0 l.
Definition mtf_decode (l : list N) : option (list N) := mtf_loop mtf_decode_char mtf_table0 l.

(** ** LiteralEncoder.hpp:23-32 compress, :34-41 decompress *)
Definition litenc_compress (c : coder) (text : list N) : option (list N) :=
  c_enc c text (map (fun x => (x, RLit)) text).

Fixpoint litenc_loop (c : coder) (fuel : nat) (s : c_st c) : option (list N) :=
  if c_eof c s then Some []
  else match fuel with
       | O => None
       | S fuel => do (v, s1) <- c_dec c RLit s;
                   do r <- litenc_loop c fuel s1;
                   Some (v :: r)
       end.
Definition litenc_decompress (c : coder) (fuel : nat) (f : list N) : option (list N) :=
  do s <- c_open c f; litenc_loop c fuel s.

(** ** NoopCompressor.hpp:22-45 and :47-70: all four mode/debug combinations copy
    the stream ([os << is.rdbuf()], [os << txt]) or the view ([os << iv]). *)
Definition noop_compress (stream_mode debug : bool) (l : list N) : list N :=
  if stream_mode then (if debug then l else l) else (if debug then l else l).
Definition noop_decompress (stream_mode debug : bool) (l : list N) : list N :=
  if stream_mode then (if debug then l else l) else (if debug then l else l).
